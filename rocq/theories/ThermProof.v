(** The rows of the quasi-linear matrix with heat conduction, applied to a vector, in terms of the increments of the
    primitive variables, and the eigenvalue problem they reduce to. *)
From Coq Require Import Reals ZArith Lra Psatz Lia FunctionalExtensionality.
From Coquelicot Require Import Coquelicot.
From Verif Require Import Base Options Sum Mat3 PhysModel PhysInst PhysSpec PhysProof PhysProof2 PhysProof5 PhysProps PhysProof7 JacProps.
From Verif Require EqModel EqSpec EqProof FvSpec FvProps RiemannProof RiemannProof2.
Import List ListNotations.
Open Scope R_scope.

Section Rows.
Variable o : options.
Variable P : par.
Variable sm : vec -> R * R * R.
Variables (sr : mat -> R) (ea : EqModel.mat -> vec -> vec) (src : vec -> vec).
Hypothesis PL : plain o P.
Hypothesis TH : THERMAL o = true.
Variables Q q : vec.
Hypothesis OK : eos_ok (prm P) (Q 0%nat).
Hypothesis HG : Gamma_MG (prm P) (Q 0%nat) <> 0.
Hypothesis HB : b02 (prm P) <> 0.
Hypothesis HV : cv (prm P) <> 0.
Variable d : nat.
Hypothesis Hd : (d < 3)%nat.
Lemma VI' : VISCOUS o = true. Proof. apply PL. Qed.
Lemma HM' : PMULTI P = false. Proof. apply PL. Qed.
Lemma HR' : (-1 < REACTION P)%Z -> MULTI o = true. Proof. apply PL. Qed.
Notation ph := (gpr o P sm sr ea src).
Notation MP := (prm P).
Notation r := (Q 0%nat).
Notation p := (pressure o P sm Q).
Notation S_ := (EqModel.system_matrix o ph Q d).
Notation act i := (rsum (V o) (fun j => S_ i j * q j)).
Notation vv := (vv Q). Notation uu := (uu Q q). Notation ss_ := (ss_ P Q q d).
(** thermal impulse, its increment, and those of pressure and temperature; the last as the program computes it *)
Definition JJ (i : nat) : R := Q (14 + i)%nat / r.
Definition jj (i : nat) : R := (q (14 + i)%nat - JJ i * q 0%nat) / r.
Definition det_ : R := de_ o P Q q - ca2 MP * dot3 JJ jj.
Definition ppt : R := 1 / dedp MP r * (det_ - dedrho MP r p * q 0%nat).
Definition tt_ : R := dTdrho MP r p * q 0%nat + dTdp MP r * ppt.
Notation T0 := (temperature_mg MP r p).
Notation slope := (Tref MP * (Gamma_MG MP r / r * phi MP r)).

Let F (k : nat) (t : R) : R := Q k + t * q k.
Lemma F0 : at_time F 0 = Q. Proof. apply functional_extensionality. intro k. unfold at_time, F. ring. Qed.
Lemma Fk0 k : F k 0 = Q k. Proof. unfold F. ring. Qed.
Lemma FV : has_velocity F 0 q. Proof. exact (PhysProof7.FV Q q). Qed.
Lemma r_pos : 0 < r. Proof. apply OK. Qed.
Lemma dp_ : is_derive (fun t : R => pressure o P sm (at_time F t)) 0 ppt.
Proof.
  assert (OK' : eos_ok MP (at_time F 0 0%nat)) by (rewrite F0; exact OK).
  assert (HG2 : Gamma_MG MP (at_time F 0 0%nat) <> 0) by (rewrite F0; exact HG).
  assert (D := pressure_curve F q 0 FV o P sm OK' HG2 HM'). unfold de_curve in D. rewrite F0 in D. rewrite VI', TH in D.
  cbv zeta in D. refine (deq _ _ _ _ D _). unfold ppt, det_, de_, dot3, sum3, jj, JJ, PhysProof7.uu, PhysProof7.vv, get_rhov, get_rhoJ. unfold Rminus. ring.
Qed.
Lemma ds_ i : (i < 3)%nat -> is_derive (fun t : R => sigma_col P (at_time F t) d i) 0 (ss_ i).
Proof. exact (PhysProof7.ds_ P Q q OK HB d Hd i). Qed.
Lemma dv_ i : is_derive (fun t : R => EqSpec.velocity (at_time F t) i) 0 (uu i).
Proof. exact (PhysProof7.dv_ P Q q OK i). Qed.
Lemma dF_ k : is_derive (fun t : R => at_time F t k) 0 (q k). Proof. exact (FV k). Qed.
Lemma v0_ i : EqSpec.velocity (at_time F 0) i = vv i. Proof. rewrite F0. reflexivity. Qed.
Lemma dJ_ i : is_derive (fun t : R => at_time F t (14 + i)%nat / at_time F t 0%nat) 0 (jj i).
Proof.
  unfold at_time, F, jj, JJ. generalize (14 + i)%nat; intro k. assert (R0 := r_pos).
  assert (D : is_derive (fun t : R => (Q k + t * q k) / (r + t * q 0%nat)) 0 ((q k - Q k / r * q 0%nat) / r)); [|exact D].
  auto_derive; [rewrite Rmult_0_l, Rplus_0_r; lra|]. rewrite !Rmult_0_l, !Rplus_0_r. field. lra.
Qed.
Lemma dT_ : is_derive (fun t : R => temperature_mg MP (at_time F t 0%nat) (pressure o P sm (at_time F t))) 0 (tt_ + slope * q 0%nat).
Proof.
  assert (Pc := dp_). assert (Q0 : is_derive (F 0%nat) 0 (q 0%nat)) by exact (FV 0%nat).
  assert (A := dp_ref_ok _ _ OK). assert (B := dphi_ok _ _ OK). assert (C := dGamma_ok _ _ OK). assert (R0 := r_pos).
  assert (FP : pressure o P sm (at_time F 0) = p) by (rewrite F0; reflexivity).
  set (fp := fun t => pressure o P sm (at_time F t)) in *. change (pressure o P sm (at_time F 0)) with (fp 0) in FP.
  apply (is_derive_ext (fun t => temperature_mg MP (F 0%nat t) (fp t))); [reflexivity|]. unfold tt_. rewrite <- FP.
  assert (FF : F 0%nat 0 = r) by apply Fk0. set (f := F 0%nat) in *.
  unfold temperature_mg. generalize ppt Pc. intros w Pc'. clearbody fp f. rewrite <- FF in *.
  auto_derive; [repeat split; try (eexists; eassumption)|].
  - repeat apply Rmult_integral_contrapositive_currified; try assumption; lra.
  - dd A; dd B; dd C; dd Q0; dd Pc'. unfold dTdrho, dTdp, dedp. field. repeat split; first [assumption|lra].
Qed.
Lemma act_row i f : (i < V o)%nat -> is_derive (fun t : R => EqSpec.physical_flux o ph (at_time F t) d i) 0 f ->
  act i = f - (if Nat.eqb i 1 then ca2 MP * JJ d else if Nat.eqb i (14 + d) then 1 else 0) * (slope * q 0%nat) + FvSpec.noncons o Q q d i.
Proof.
  intros Hi D. assert (OK' : eos_ok MP (F 0%nat 0)) by (rewrite Fk0; exact OK).
  assert (HG2 : Gamma_MG MP (F 0%nat 0) <> 0) by (rewrite Fk0; exact HG).
  assert (J := flux_derivative_with_heat o P sm sr ea src PL TH F q 0 d i FV OK' HG2 HB HV Hd Hi). cbv zeta in J. rewrite F0 in J.
  destruct (FvProps.bdot_is_block_partial o Q q d VI' Hd) as (B & EB & HB'). destruct (HB' i Hi) as (E1 & E2).
  assert (D' : is_derive (fun t : R => EqModel.flux o ph (fun _ => 0) (at_time F t) d i) 0 f).
  { eapply is_derive_ext_loc; [|exact D]. apply (filter_imp (fun t : R => F 0%nat t <> 0)); [|exact (PhysProof7.near P Q q OK)].
    intros t Ht. symmetry. exact (RiemannProof2.flux0 o P sm VI' sr ea src (at_time F t) d i Hd Ht). }
  apply is_derive_unique in D'. apply is_derive_unique in J. assert (E := eq_trans (eq_sym D') J).
  assert (SP : act i = rsum (V o) (fun j => EqModel.jacobian ph Q d i j * q j) + rsum (V o) (fun j => EqModel.block o Q d i j * q j)).
  { rewrite <- rsum_plus. apply rsum_ext. intros j _. unfold EqModel.system_matrix. ring. }
  rewrite SP, <- E1, E2. unfold JJ. clear - E. lra.
Qed.

Lemma V_ge : (17 <= V o)%nat. Proof. unfold V. rewrite VI', TH. cbn [b2n]. lia. Qed.
Lemma nc_other i : (i < 5 \/ 14 <= i < V o - LSET o)%nat -> FvSpec.noncons o Q q d i = 0.
Proof.
  intros Hi. unfold FvSpec.noncons. replace (Nat.leb 5 i && Nat.ltb i 14)%bool with false.
  2:{ symmetry. apply Bool.andb_false_iff. destruct Hi; [left; apply Nat.leb_gt; lia|right; apply Nat.ltb_ge; lia]. }
  replace (Nat.leb (V o - LSET o) i) with false; [reflexivity|]. symmetry. apply Nat.leb_gt.
  assert (L : (17 <= V o - LSET o)%nat) by (unfold V; rewrite VI', TH; cbn [b2n]; lia). lia.
Qed.
Lemma row_plain i f : (i < V o)%nat -> i <> 1%nat -> i <> (14 + d)%nat -> is_derive (fun t : R => EqSpec.physical_flux o ph (at_time F t) d i) 0 f ->
  act i = f + FvSpec.noncons o Q q d i.
Proof. intros Hi N1 N2 D. rewrite (act_row i f Hi D). rewrite (proj2 (Nat.eqb_neq _ _) N1), (proj2 (Nat.eqb_neq _ _) N2). ring. Qed.
Lemma row_0 : act 0%nat = q (2 + d)%nat.
Proof.
  assert (X := V_ge). rewrite (row_plain 0%nat (q (2 + d)%nat)); [rewrite nc_other by lia; ring|lia|lia|lia|].
  unfold EqSpec.physical_flux. cbn [Nat.eqb]. assert (Y := dmul _ _ _ _ _ (dF_ 0%nat) (dv_ d)). refine (deq _ _ _ _ Y _).
  rewrite v0_, F0. unfold PhysProof7.uu, PhysProof7.vv. assert (R0 := r_pos). field. lra.
Qed.
Lemma row_v i : (i < 3)%nat -> act (2 + i)%nat =
  vv i * vv d * q 0%nat + r * uu i * vv d + r * vv i * uu d + ppt * delta i d - ss_ i.
Proof.
  intros Hi. assert (X := V_ge). erewrite row_plain; [rewrite nc_other by lia; apply Rplus_0_r|lia|lia|lia|].
  assert (E : forall t, EqSpec.physical_flux o ph (at_time F t) d (2 + i)%nat =
    at_time F t 0%nat * EqSpec.velocity (at_time F t) i * EqSpec.velocity (at_time F t) d + pressure o P sm (at_time F t) * delta i d - sigma_col P (at_time F t) d i).
  { intro t. unfold EqSpec.physical_flux. idx3 i; reflexivity. }
  eapply is_derive_ext; [intro t; symmetry; apply E|].
  assert (Y := dminus _ _ _ _ _ (dplus _ _ _ _ _ (dmul _ _ _ _ _ (dmul _ _ _ _ _ (dF_ 0%nat) (dv_ i)) (dv_ d)) (dscal _ (delta i d) _ _ dp_)) (ds_ i Hi)).
  refine (deq _ _ _ _ Y _). rewrite !v0_, F0. ring.
Qed.
Lemma row_1 : act 1%nat = uu d * (Q 1%nat + p) + vv d * (q 1%nat + ppt)
  - (sum3 (fun k => ss_ k * vv k) + dot3 (sigma_col P Q d) uu) + ca2 MP * (tt_ * JJ d + T0 * jj d).
Proof.
  assert (X := V_ge). erewrite act_row; [rewrite nc_other by lia; rewrite Rplus_0_r|lia|].
  2:{ unfold EqSpec.physical_flux. cbn [Nat.eqb]. unfold EqSpec.heat_flux. rewrite TH. unfold dot3, sum3.
  exact (dplus _ _ _ _ _ (dminus _ _ _ _ _ (dmul _ _ _ _ _ (dv_ d) (dplus _ _ _ _ _ (dF_ 1%nat) dp_))
    (dplus _ _ _ _ _ (dplus _ _ _ _ _ (dmul _ _ _ _ _ (ds_ 0%nat ltac:(lia)) (dv_ 0%nat)) (dmul _ _ _ _ _ (ds_ 1%nat ltac:(lia)) (dv_ 1%nat))) (dmul _ _ _ _ _ (ds_ 2%nat ltac:(lia)) (dv_ 2%nat))))
    (dmul _ _ _ _ _ (dmul _ _ _ _ _ (is_derive_const (V := R_NormedModule) (ca2 MP) 0) dT_) (dJ_ d))). }
  cbv beta. rewrite !v0_, !F0. cbn [Nat.eqb]. change (zero (G := R_NormedModule)) with 0. unfold dot3, sum3. change (Q (14 + d)%nat / r) with (JJ d). ring.
Qed.
Lemma row_A m n : (m < 3)%nat -> (n < 3)%nat -> act (5 + 3 * m + n)%nat =
  vv d * q (5 + 3 * m + n)%nat + delta n d * mvec (get_A Q) uu m.
Proof.
  intros Hm Hn. assert (X := V_ge). erewrite row_plain; [|lia|lia|lia|].
  2:{ assert (E : forall t, EqSpec.physical_flux o ph (at_time F t) d (5 + 3 * m + n)%nat =
        (at_time F t (5 + 3 * m + 0)%nat * EqSpec.velocity (at_time F t) 0%nat + at_time F t (5 + 3 * m + 1)%nat * EqSpec.velocity (at_time F t) 1%nat
         + at_time F t (5 + 3 * m + 2)%nat * EqSpec.velocity (at_time F t) 2%nat) * delta n d).
      { intro t. unfold EqSpec.physical_flux, mvec, EqSpec.Amat, sum3. idx3 m; idx3 n; reflexivity. }
      eapply is_derive_ext; [intro t; symmetry; apply E|].
      exact (dscal _ (delta n d) _ _ (dplus _ _ _ _ _ (dplus _ _ _ _ _ (dmul _ _ _ _ _ (dF_ (5 + 3 * m + 0)%nat) (dv_ 0%nat)) (dmul _ _ _ _ _ (dF_ (5 + 3 * m + 1)%nat) (dv_ 1%nat))) (dmul _ _ _ _ _ (dF_ (5 + 3 * m + 2)%nat) (dv_ 2%nat)))). }
  cbv beta. rewrite !v0_, F0. unfold FvSpec.noncons.
  change (EqSpec.velocity Q) with vv. cbv zeta. unfold mvec, get_A, sum3.
  idx3 m; idx3 n; cbn [Nat.leb Nat.ltb Nat.add Nat.mul andb Nat.sub]; cbn [Nat.div Nat.modulo Nat.divmod fst snd Nat.sub Nat.add Nat.mul]; ring.
Qed.
Lemma row_J i : (i < 3)%nat -> act (14 + i)%nat = q (14 + i)%nat * vv d + Q (14 + i)%nat * uu d + tt_ * delta i d.
Proof.
  intros Hi. assert (X := V_ge). assert (L : (17 <= V o - LSET o)%nat) by (unfold V; rewrite VI', TH; cbn [b2n]; lia).
  erewrite act_row; [|lia|].
  2:{ assert (E : forall t, EqSpec.physical_flux o ph (at_time F t) d (14 + i)%nat =
        at_time F t (14 + i)%nat * EqSpec.velocity (at_time F t) d + temperature_mg MP (at_time F t 0%nat) (pressure o P sm (at_time F t)) * delta i d).
      { intro t. unfold EqSpec.physical_flux. rewrite TH. idx3 i; reflexivity. }
      eapply is_derive_ext; [intro t; symmetry; apply E|].
      exact (dplus _ _ _ _ _ (dmul _ _ _ _ _ (dF_ (14 + i)%nat) (dv_ d)) (dscal _ (delta i d) _ _ dT_)). }
  cbv beta. rewrite v0_, F0, nc_other by lia. change (Nat.eqb (14 + i) 1) with false. unfold delta.
  destruct (Nat.eqb_spec i d) as [-> |N]; [rewrite Nat.eqb_refl|rewrite (proj2 (Nat.eqb_neq (14 + i) (14 + d))) by lia]; ring.
Qed.
Lemma row_ls k : (V o - LSET o <= k < V o)%nat -> act k = vv d * q k.
Proof.
  intros Hk. assert (K : (17 <= k)%nat) by (unfold V in Hk; rewrite VI', TH in Hk; cbn [b2n] in Hk; lia).
  rewrite (row_plain k 0); [|lia|lia|lia|].
  - unfold FvSpec.noncons. replace (Nat.ltb k 14) with false by (symmetry; apply Nat.ltb_ge; lia). rewrite Bool.andb_false_r.
    replace (Nat.leb (V o - LSET o) k) with true by (symmetry; apply Nat.leb_le; lia). replace (Nat.ltb k (V o)) with true by (symmetry; apply Nat.ltb_lt; lia).
    cbn [andb]. change (EqSpec.velocity Q d) with (vv d). ring.
  - eapply is_derive_ext; [|exact (is_derive_const (V := R_NormedModule) 0 0)]. intro t. unfold EqSpec.physical_flux. rewrite TH.
    replace (Nat.eqb k 0) with false by (symmetry; apply Nat.eqb_neq; lia). replace (Nat.eqb k 1) with false by (symmetry; apply Nat.eqb_neq; lia).
    replace (Nat.ltb k 5) with false by (symmetry; apply Nat.ltb_ge; lia). replace (Nat.ltb k 14) with false by (symmetry; apply Nat.ltb_ge; lia).
    replace (Nat.ltb k 17) with false by (symmetry; apply Nat.ltb_ge; lia).
    cbn [andb]. destruct (MULTI o) eqn:MU; [|reflexivity].
    replace (Nat.eqb k (mV o)) with false; [reflexivity|]. symmetry. apply Nat.eqb_neq. unfold V, mV in *. rewrite MU in Hk. cbn [b2n] in Hk. lia.
Qed.
Lemma row_mV : MULTI o = true -> act (mV o) = q (mV o) * vv d + Q (mV o) * uu d.
Proof.
  intros MU. assert (E : mV o = 17%nat) by (unfold mV; rewrite VI', TH; reflexivity). rewrite E.
  assert (V1 : V o = (18 + LSET o)%nat) by (unfold V; rewrite VI', TH, MU; cbn [b2n]; lia).
  erewrite row_plain; [|lia|lia|lia|].
  2:{ eapply is_derive_ext; [|exact (dmul _ _ _ _ _ (dF_ 17%nat) (dv_ d))]. intro t. unfold EqSpec.physical_flux. rewrite TH, MU, E. reflexivity. }
  cbv beta. rewrite v0_, F0, nc_other by lia. ring.
Qed.

(** ** what an eigenvector satisfies *)
Variable mu_ : R.
Hypothesis EIG : forall i, (i < V o)%nat -> act i = mu_ * q i.
Notation s := (mu_ - vv d).
Lemma q_v i : q (2 + i)%nat = vv i * q 0%nat + r * uu i.
Proof. unfold PhysProof7.uu. assert (R0 := r_pos). field. lra. Qed.
Lemma q_J i : q (14 + i)%nat = JJ i * q 0%nat + r * jj i.
Proof. unfold jj. assert (R0 := r_pos). field. lra. Qed.
Lemma e_0 : s * q 0%nat = r * uu d.
Proof. assert (E := EIG 0 ltac:(assert (X := V_ge); lia)). rewrite row_0, q_v in E. lra. Qed.
Lemma e_v i : (i < 3)%nat -> s * (r * uu i) = ppt * delta i d - ss_ i.
Proof.
  intros Hi. assert (E := EIG (2 + i)%nat ltac:(assert (X := V_ge); lia)). rewrite row_v, q_v in E by exact Hi. assert (Z := e_0).
  assert (vv i * (s * q 0%nat) = vv i * (r * uu d)) by (rewrite Z; ring). lra.
Qed.
Lemma e_J i : (i < 3)%nat -> s * (r * jj i) = tt_ * delta i d.
Proof.
  intros Hi. assert (E := EIG (14 + i)%nat ltac:(assert (X := V_ge); lia)). rewrite row_J, q_J in E by exact Hi. assert (Z := e_0).
  assert (JJ i * (s * q 0%nat) = Q (14 + i)%nat * uu d) by (rewrite Z; unfold JJ; assert (R0 := r_pos); field; lra). lra.
Qed.
Lemma e_A m n : (m < 3)%nat -> (n < 3)%nat -> s * get_A q m n = delta n d * mvec (get_A Q) uu m.
Proof. intros Hm Hn. assert (E := EIG (5 + 3 * m + n)%nat ltac:(assert (X := V_ge); lia)). rewrite row_A in E by assumption. unfold get_A at 1. lra. Qed.
Lemma e_1 : s * q 1%nat = uu d * (Q 1%nat + p) + s * r * dot3 vv uu - dot3 (sigma_col P Q d) uu + ca2 MP * (tt_ * JJ d + T0 * jj d).
Proof.
  assert (E := EIG 1 ltac:(assert (X := V_ge); lia)). rewrite row_1 in E.
  assert (A := e_v 0 ltac:(lia)). assert (B := e_v 1 ltac:(lia)). assert (C := e_v 2 ltac:(lia)).
  assert (X : vv d * ppt - sum3 (fun k => ss_ k * vv k) = s * r * dot3 vv uu).
  { transitivity (vv 0%nat * (s * (r * uu 0%nat)) + vv 1%nat * (s * (r * uu 1%nat)) + vv 2%nat * (s * (r * uu 2%nat))).
    - rewrite A, B, C. unfold sum3. assert (Y : vv d = vv 0%nat * delta 0 d + vv 1%nat * delta 1 d + vv 2%nat * delta 2 d) by (clear - Hd; revert Hd; generalize d; intros e He; idx3 e; unfold delta; cbn; ring).
      rewrite Y. ring.
    - unfold dot3, sum3. ring. }
  lra.
Qed.
Lemma e_mV : MULTI o = true -> s * q (mV o) = Q (mV o) * uu d.
Proof.
  intros MU. assert (E := EIG (mV o) ltac:(unfold mV, V; rewrite VI', MU; cbn [b2n]; lia)). rewrite (row_mV MU) in E. lra.
Qed.
Lemma e_ls k : (V o - LSET o <= k < V o)%nat -> s * q k = 0.
Proof. intros Hk. assert (E := EIG k ltac:(lia)). rewrite row_ls in E by exact Hk. lra. Qed.
Lemma e_de : s * det_ = uu d * p / r - dot3 (sigma_col P Q d) uu / r - dC_0drho MP r / 4 * devGsq (get_A Q) * (r * uu d)
  - sum3 (fun m => dEdA P Q m d * mvec (get_A Q) uu m) + ca2 MP * T0 * jj d / r.
Proof.
  assert (R0 := r_pos). unfold det_, de_.
  assert (RC : s * (if Z.ltb (-1) (REACTION P) then Qc P * ((q (mV o) - Q (mV o) / r * q 0%nat) / r) else 0) = 0).
  { destruct (Z.ltb (-1) (REACTION P)) eqn:RE; [|ring]. apply Z.ltb_lt in RE. assert (E := e_mV (HR' RE)).
    transitivity (Qc P / r * (s * q (mV o) - Q (mV o) / r * (s * q 0%nat))); [field; lra|]. rewrite E, e_0. field. lra. }
  assert (AA : s * frob3 (dEdA P Q) (get_A q) = sum3 (fun m => dEdA P Q m d * mvec (get_A Q) uu m)).
  { transitivity (sum3 (fun m => sum3 (fun n => dEdA P Q m n * (s * get_A q m n)))); [unfold frob3, sum3; ring|].
    unfold sum3. rewrite !e_A by lia. clear - Hd. revert Hd. generalize d. intros e He. idx3 e; unfold delta; cbn [Nat.eqb]; ring. }
  assert (JA : s * dot3 JJ jj = JJ d * tt_ / r).
  { transitivity (sum3 (fun i => JJ i * (s * (r * jj i))) / r); [unfold dot3, sum3; field; lra|]. unfold sum3. rewrite !e_J by lia.
    clear - Hd R0. revert Hd. generalize d. intros e He. idx3 e; unfold delta; cbn [Nat.eqb]; field; lra. }
  match goal with |- s * (?a - ?b - (?c + ?e) - ?f - ?g * ?h) = _ => transitivity (s * a - s * b - s * c - s * e - s * f - g * (s * h)); [ring|] end.
  rewrite RC, AA, JA.
  transitivity ((s * q 1%nat - Q 1%nat / r * (s * q 0%nat)) / r - s * dot3 vv uu - dC_0drho MP r / 4 * devGsq (get_A Q) * (s * q 0%nat)
    - sum3 (fun m => dEdA P Q m d * mvec (get_A Q) uu m) - 0 - ca2 MP * (JJ d * tt_ / r)); [field; lra|].
  rewrite e_1, e_0. field. lra.
Qed.
Hypothesis HC : 0 <= (p / (r * r) - dEdrho o P sm Q) / dEdp o P sm Q.
Hypothesis HT : 0 <= ca2 MP * T0 / cv MP.
Notation ch := (c_h P r T0).
Lemma heat_coeff : r * ch * ch / dTdp MP r = 1 / dedp MP r * (ca2 MP * T0 / r).
Proof.
  assert (R0 := r_pos). unfold c_h. set (X := ca2 MP * T0 / cv MP) in *.
  transitivity (sqrt X * sqrt X / (r * dTdp MP r)).
  { unfold dTdp, dedp. field. repeat split; try assumption; lra. }
  rewrite sqrt_sqrt by exact HT. unfold X, dTdp, dedp. field. repeat split; try assumption; lra.
Qed.
Lemma e_p : s * ppt = r * c_0 o P sm Q * c_0 o P sm Q * uu d + sum3 (fun k => (sigma_col P Q d k - r * dsigmadrho P Q d k) * uu k)
  + r * ch * ch / dTdp MP r * jj d.
Proof.
  assert (R0 := r_pos). rewrite heat_coeff.
  transitivity (1 / dedp MP r * (s * det_ - dedrho MP r p * (s * q 0%nat))); [unfold ppt; ring|]. rewrite e_de, e_0.
  unfold c_0. set (X := _ / dEdp o P sm Q) in *.
  replace (r * sqrt X * sqrt X) with (r * X) by (rewrite Rmult_assoc, sqrt_sqrt by exact HC; reflexivity).
  unfold X, dEdrho, dEdp. rewrite HM'.
  assert (SG : forall k, (k < 3)%nat -> sigma_col P Q d k = - r * c_s2 MP r * shape (get_A Q) d k).
  { intros k Hk. rewrite sigma_col_shape. rewrite shape_sym by assumption. reflexivity. }
  assert (AU : sum3 (fun m => dEdA P Q m d * mvec (get_A Q) uu m) = C_0 MP r * sum3 (fun k => shape (get_A Q) d k * uu k))
    by (unfold dEdA, mscal, mvec, shape, sum3; ring).
  rewrite AU. unfold dsigmadrho, dot3, sum3. rewrite !SG by lia. unfold dedp, C_0, dc_s2drho.
  set (a0 := shape (get_A Q) d 0). set (a1 := shape (get_A Q) d 1). set (a2 := shape (get_A Q) d 2).
  assert (CS : c_s2 MP r <> 0) by (unfold c_s2; apply Rmult_integral_contrapositive; split; [exact HB|]; apply Rgt_not_eq, exp_pos).
  generalize T0. intro T. assert (HG' := HG). field. repeat split; try assumption; lra.
Qed.

(** ** the 4x4 eigenvalue problem, for the direction 0 *)
Definition yy (i : nat) : R := if Nat.ltb i 3 then uu i else jj (i - 3)%nat.
Lemma y_nonzero : d = 0%nat -> s <> 0 -> (exists k, (k < V o)%nat /\ q k <> 0) -> exists i, (i < 4)%nat /\ yy i <> 0.
Proof.
  intros D0 HS (k & Hk & Nk).
  destruct (Req_EM_T (uu 0%nat) 0) as [U0|]; [|exists 0%nat; split; [lia|assumption]].
  destruct (Req_EM_T (uu 1%nat) 0) as [U1|]; [|exists 1%nat; split; [lia|assumption]].
  destruct (Req_EM_T (uu 2%nat) 0) as [U2|]; [|exists 2%nat; split; [lia|assumption]].
  destruct (Req_EM_T (jj 0%nat) 0) as [J0|]; [|exists 3%nat; split; [lia|assumption]].
  exfalso. apply Nk. assert (UZ : forall i, (i < 3)%nat -> uu i = 0) by (intros i Hi; idx3 i; assumption).
  assert (SZ : forall x, s * x = 0 -> x = 0) by (intros x X; apply Rmult_integral in X; tauto).
  assert (R0 := r_pos).
  assert (JZ : forall i, (i < 3)%nat -> jj i = 0).
  { intros i Hi. destruct (Nat.eq_dec i 0) as [-> |N]; [exact J0|]. assert (E := e_J i Hi). rewrite D0 in E at 2. unfold delta in E. rewrite (proj2 (Nat.eqb_neq _ _) N), Rmult_0_r in E.
    apply SZ in E. apply Rmult_integral in E. destruct E; [lra|assumption]. }
  assert (TZ : tt_ = 0).
  { assert (E := e_J 0%nat ltac:(lia)). rewrite J0, D0 in E at 1. unfold delta in E. rewrite D0, Nat.eqb_refl in E. lra. }
  assert (Q0 : q 0%nat = 0) by (apply SZ; rewrite e_0, (UZ d Hd); ring).
  assert (K : k = 0%nat \/ k = 1%nat \/ (exists i, (i < 3)%nat /\ k = (2 + i)%nat) \/ (exists m n, (m < 3)%nat /\ (n < 3)%nat /\ k = (5 + 3 * m + n)%nat) \/ (exists i, (i < 3)%nat /\ k = (14 + i)%nat) \/ (17 <= k)%nat).
  { destruct k as [|[|k]]; [tauto|tauto|]. do 2 right. destruct (le_lt_dec 3 k) as [G|L]; [|left; exists k; split; [exact L|lia]]. right.
    destruct (le_lt_dec 12 k) as [G12|L].
    - right. destruct (le_lt_dec 15 k); [right; lia|]. left. exists (k - 12)%nat. split; lia.
    - left. exists ((k - 3) / 3)%nat, ((k - 3) mod 3)%nat.
      assert (E := Nat.div_mod (k - 3) 3 ltac:(lia)). assert (M := Nat.mod_upper_bound (k - 3) 3 ltac:(lia)). 
      split; [apply Nat.div_lt_upper_bound; lia|]. split; [exact M|lia]. }
  destruct K as [->|[->|[(i & Hi & ->)|[(m & n & Hm & Hn & ->)|[(i & Hi & ->)|K]]]]].
  - exact Q0.
  - apply SZ. rewrite e_1. unfold dot3, sum3. rewrite (UZ d Hd), U0, U1, U2, TZ, (JZ d Hd). ring.
  - rewrite q_v, Q0, (UZ i Hi). ring.
  - apply SZ. assert (E := e_A m n Hm Hn). unfold get_A in E at 1. rewrite E. unfold mvec, sum3. rewrite U0, U1, U2. ring.
  - rewrite q_J, Q0, (JZ i Hi). ring.
  - destruct (le_lt_dec (V o - LSET o) k) as [G|L]; [apply SZ, e_ls; lia|].
    assert (V1 : V o = (17 + b2n (MULTI o) + LSET o)%nat) by (unfold V; rewrite VI', TH; cbn [b2n]; lia).
    destruct (MULTI o) eqn:MU; cbn [b2n] in V1; [|lia]. assert (M : mV o = 17%nat) by (unfold mV; rewrite VI', TH; reflexivity).
    assert (k = mV o) by lia. subst k. apply SZ. rewrite e_mV by exact MU. rewrite (UZ d Hd). ring.
Qed.
Lemma acoustic i : d = 0%nat -> (i < 4)%nat ->
  rsum 4 (fun j => thermo_acoustic_tensor o P sm Q d i j * yy j) = s * s * yy i.
Proof.
  intros D0 Hi. assert (R0 := r_pos).
  assert (X2 : forall k, (k < 5)%nat -> rsum 4 (fun j => Xi2 o P sm r p Q d k j * yy j) = s * (match k with O => q 0%nat | 1%nat => ppt | _ => get_A q (k - 2)%nat d end)).
  { intros k Hk. unfold Xi2, addblock, setblock. rewrite VI', TH. cbn [rsum]. unfold yy. cbn [Nat.ltb Nat.leb Nat.sub].
    destruct k as [|[|[|[|[|k]]]]]; [| | | | |lia].
    - rewrite e_0. subst d. cbn. ring.
    - rewrite e_p. subst d. unfold sum3. cbn -[c_h dTdp temperature_mg]. ring.
    - rewrite e_A by lia. subst d. unfold mvec, sum3, delta. cbn. ring.
    - rewrite e_A by lia. subst d. unfold mvec, sum3, delta. cbn. ring.
    - rewrite e_A by lia. subst d. unfold mvec, sum3, delta. cbn. ring. }
  transitivity (rsum 5 (fun k => Xi1 o P r p Q d i k * rsum 4 (fun j => Xi2 o P sm r p Q d k j * yy j))).
  { unfold thermo_acoustic_tensor. cbv zeta. cbn [rsum]. ring. }
  cbn [rsum] in X2 |- *. rewrite !X2 by lia. cbn [Nat.sub].
  destruct (Req_EM_T s 0) as [S0|S1]; [rewrite S0; ring|].
  destruct (le_lt_dec 3 i) as [G|L3].
  { replace i with 3%nat by lia. unfold yy. cbn [Nat.ltb Nat.leb Nat.sub]. transitivity (s * (tt_ / r)).
    - unfold Xi1, setblock. rewrite VI', TH. unfold tt_. cbn -[dTdp dTdrho]. field. lra.
    - assert (E := e_J 0%nat ltac:(lia)). rewrite D0 in E at 2. unfold delta in E. rewrite Nat.eqb_refl in E.
      replace tt_ with (s * (r * jj 0%nat)) by lra. field. lra. }
  transitivity (s * ((ppt * delta i d - ss_ i) / r)).
  2:{ rewrite <- e_v by exact L3. unfold yy. rewrite (proj2 (Nat.ltb_lt _ _) L3). field. lra. }
  assert (AZ : forall m n, (m < 3)%nat -> (n < 3)%nat -> n <> d -> get_A q m n = 0).
  { intros m n Hm Hn N. assert (E := e_A m n Hm Hn). unfold delta in E. rewrite (proj2 (Nat.eqb_neq n d) N), Rmult_0_l in E. apply Rmult_integral in E. destruct E; [contradiction|assumption]. }
  unfold PhysProof7.ss_, sum3. rewrite (AZ 0%nat 1%nat), (AZ 1%nat 1%nat), (AZ 2%nat 1%nat), (AZ 0%nat 2%nat), (AZ 1%nat 2%nat), (AZ 2%nat 2%nat) by (subst d; lia).
  unfold Xi1, setblock. rewrite VI', TH. 
  assert (SC := fun m Hm => stress_derivative_column P Q d i m L3 Hd Hm). cbv zeta in SC. rewrite D0 in *.
  rewrite <- !SC by lia. idx3 i; unfold delta; cbn -[dTdp dTdrho]; field; lra.
Qed.
End Rows.
