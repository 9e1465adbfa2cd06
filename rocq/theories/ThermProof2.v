(** With heat conduction: from the eigenvalue problem of the acoustic tensor back to eigenvectors of the whole system, and the
    velocity of a state moved in the primitive variables. *)
From Coq Require Import Reals ZArith Lra Psatz Lia FunctionalExtensionality.
From Coquelicot Require Import Coquelicot.
From Verif Require Import Base Options Sum Mat3 PhysModel PhysInst PhysSpec PhysProof PhysProof2 PhysProof5 PhysProps PhysProof7 RiemannProof RConsProof3 RConsProof4 RConsProof5 ThermProof.
From Verif Require EqModel EqSpec.
Open Scope R_scope.

Section Rev.
Variable o : options.
Variable P : par.
Variable sm : vec -> R * R * R.
Variables (sr : mat -> R) (ea : EqModel.mat -> vec -> vec) (src : vec -> vec).
Hypothesis PL : plain o P.
Hypothesis TH : THERMAL o = true.
Variables Q q : vec.
Hypothesis OK : eos_ok (prm P) (Q 0%nat).
Hypothesis HG : Gamma_MG (prm P) (Q 0%nat) <> 0.
Hypothesis HB : b02 (prm P) <> 0.
Hypothesis HV : cv (prm P) <> 0.
Notation MP := (prm P).
Notation r := (Q 0%nat).
Notation p := (pressure o P sm Q).
Notation T0 := (temperature_mg MP r p).
Notation vv := (vv Q). Notation uu := (uu Q q). Notation pp := (ppt o P sm Q q). Notation ss := (ss_ P Q q 0).
Notation JJ := (JJ Q). Notation jj := (jj Q q). Notation tt_ := (tt_ o P sm Q q).
Notation ch := (c_h P r T0).
Hypothesis HC : 0 <= (p / (r * r) - dEdrho o P sm Q) / dEdp o P sm Q.
Hypothesis HT : 0 <= ca2 MP * T0 / cv MP.
Variable s : R.
Hypothesis E0 : s * q 0%nat = r * uu 0%nat.
Hypothesis Ev : forall i, (i < 3)%nat -> s * (r * uu i) = pp * delta i 0 - ss i.
Hypothesis EA : forall m n, (m < 3)%nat -> (n < 3)%nat -> s * get_A q m n = delta n 0 * mvec (get_A Q) uu m.
Hypothesis EJ : forall i, (i < 3)%nat -> s * (r * jj i) = tt_ * delta i 0.
Hypothesis Ep : s * pp = r * c_0 o P sm Q * c_0 o P sm Q * uu 0%nat + sum3 (fun k => (sigma_col P Q 0 k - r * dsigmadrho P Q 0 k) * uu k)
  + r * ch * ch / dTdp MP r * jj 0%nat.
Hypothesis EmV : MULTI o = true -> s * q (mV o) = Q (mV o) * uu 0%nat.
Hypothesis Els : forall k, (V o - LSET o <= k < V o)%nat -> s * q k = 0.
Lemma rev_de : s * det_ o P Q q = uu 0%nat * p / r - dot3 (sigma_col P Q 0) uu / r - dC_0drho MP r / 4 * devGsq (get_A Q) * (r * uu 0%nat)
  - sum3 (fun m => dEdA P Q m 0%nat * mvec (get_A Q) uu m) + ca2 MP * T0 * jj 0%nat / r.
Proof.
  assert (R0 : 0 < r) by apply OK. set (X := uu 0%nat * p / r - _ - _ - _ + _).
  assert (D : 1 / dedp MP r * (X - dedrho MP r p * (r * uu 0%nat)) = s * pp).
  { rewrite Ep. unfold X. rewrite (heat_coeff o P sm Q OK HG HV HT).
    unfold c_0. set (Y := _ / dEdp o P sm Q) in *.
    replace (r * sqrt Y * sqrt Y) with (r * Y) by (rewrite Rmult_assoc, sqrt_sqrt by exact HC; reflexivity).
    unfold Y, dEdrho, dEdp. rewrite (HM o P PL).
    assert (SG : forall k, (k < 3)%nat -> sigma_col P Q 0 k = - r * c_s2 MP r * shape (get_A Q) 0 k).
    { intros k Hk. rewrite sigma_col_shape. rewrite shape_sym by (assumption || lia). reflexivity. }
    assert (AU : sum3 (fun m => dEdA P Q m 0%nat * mvec (get_A Q) uu m) = C_0 MP r * sum3 (fun k => shape (get_A Q) 0 k * uu k))
      by (unfold dEdA, mscal, mvec, shape, sum3; ring).
    rewrite AU. unfold dsigmadrho, dot3, sum3. rewrite !SG by lia. unfold dedp, C_0, dc_s2drho.
    set (a0 := shape (get_A Q) 0 0). set (a1 := shape (get_A Q) 0 1). set (a2 := shape (get_A Q) 0 2).
    assert (CS : c_s2 MP r <> 0) by (unfold c_s2; apply Rmult_integral_contrapositive; split; [exact HB|]; apply Rgt_not_eq, exp_pos).
    generalize T0. intro T. assert (HG' := HG). field. repeat split; try assumption; lra. }
  assert (N : 1 / dedp MP r <> 0).
  { unfold dedp. replace (1 / (1 / (r * Gamma_MG MP r))) with (r * Gamma_MG MP r) by (field; split; [exact HG|lra]).
    apply Rmult_integral_contrapositive_currified; [lra|exact HG]. }
  assert (D2 : s * pp = 1 / dedp MP r * (s * det_ o P Q q - dedrho MP r p * (r * uu 0%nat))).
  { rewrite <- E0. unfold ppt. ring. }
  rewrite D2 in D. apply Rmult_eq_reg_l in D; [|exact N]. lra.
Qed.
Lemma rev_1 : s * q 1%nat = uu 0%nat * (Q 1%nat + p) + s * r * dot3 vv uu - dot3 (sigma_col P Q 0) uu + ca2 MP * (tt_ * JJ 0%nat + T0 * jj 0%nat).
Proof.
  assert (R0 : 0 < r) by apply OK. assert (D := rev_de).
  assert (RC : s * (if Z.ltb (-1) (REACTION P) then Qc P * ((q (mV o) - Q (mV o) / r * q 0%nat) / r) else 0) = 0).
  { destruct (Z.ltb (-1) (REACTION P)) eqn:RE; [|ring]. apply Z.ltb_lt in RE. assert (E := EmV (HR o P PL RE)).
    transitivity (Qc P / r * (s * q (mV o) - Q (mV o) / r * (s * q 0%nat))); [field; lra|]. rewrite E, E0. field. lra. }
  assert (AA : s * frob3 (dEdA P Q) (get_A q) = sum3 (fun m => dEdA P Q m 0%nat * mvec (get_A Q) uu m)).
  { transitivity (sum3 (fun m => sum3 (fun n => dEdA P Q m n * (s * get_A q m n)))); [unfold frob3, sum3; ring|].
    unfold sum3. rewrite !EA by lia. unfold delta; cbn [Nat.eqb]; ring. }
  assert (JA : s * dot3 JJ jj = JJ 0%nat * tt_ / r).
  { transitivity (sum3 (fun i => JJ i * (s * (r * jj i))) / r); [unfold dot3, sum3; field; lra|]. unfold sum3. rewrite !EJ by lia.
    unfold delta; cbn [Nat.eqb]; field; lra. }
  unfold det_, de_ in D.
  match type of D with s * (?a - ?b - (?c + ?e) - ?f - ?g * ?h) = _ => assert (D' : s * a - s * b - s * c - s * e - s * f - g * (s * h) = s * (a - b - (c + e) - f - g * h)) by ring end.
  rewrite D, RC, AA, JA in D'.
  assert (D3 : s * ((q 1%nat - Q 1%nat / r * q 0%nat) / r) = (s * q 1%nat - Q 1%nat * uu 0%nat) / r).
  { transitivity ((s * q 1%nat - Q 1%nat / r * (s * q 0%nat)) / r); [field; lra|]. rewrite E0. field. lra. }
  rewrite D3 in D'.
  assert (D4 : s * (dC_0drho MP r / 4 * devGsq (get_A Q) * q 0%nat) = dC_0drho MP r / 4 * devGsq (get_A Q) * (r * uu 0%nat)) by (rewrite <- E0; ring).
  rewrite D4 in D'.
  assert (D5 : (s * q 1%nat - Q 1%nat * uu 0%nat) / r = uu 0%nat * p / r - dot3 (sigma_col P Q 0) uu / r + s * dot3 vv uu + ca2 MP * T0 * jj 0%nat / r + ca2 MP * (JJ 0%nat * tt_ / r)) by lra.
  assert (D6 : s * q 1%nat - Q 1%nat * uu 0%nat = r * (uu 0%nat * p / r - dot3 (sigma_col P Q 0) uu / r + s * dot3 vv uu + ca2 MP * T0 * jj 0%nat / r + ca2 MP * (JJ 0%nat * tt_ / r))).
  { rewrite <- D5. field. lra. }
  replace (s * q 1%nat) with (Q 1%nat * uu 0%nat + (s * q 1%nat - Q 1%nat * uu 0%nat)) by ring. rewrite D6. field. lra.
Qed.
Lemma rev_eigen : forall i, (i < V o)%nat ->
  rsum (V o) (fun j => EqModel.system_matrix o (gpr o P sm sr ea src) Q 0 i j * q j) = (vv 0%nat + s) * q i.
Proof.
  intros i Hi. assert (R0 : 0 < r) by apply OK.
  assert (QV : forall i, q (2 + i)%nat = vv i * q 0%nat + r * uu i) by (intro k; unfold PhysProof7.uu; field; lra).
  assert (QJ : forall i, q (14 + i)%nat = JJ i * q 0%nat + r * jj i) by (intro k; unfold ThermProof.jj; field; lra).
  assert (V17 : (17 <= V o)%nat) by exact (ThermProof.V_ge o P PL TH 0 ltac:(lia)).
  destruct (index_cases true i) as [->|[->|[(k & Hk & ->)|[(m & n & Hm & Hn & ->)|[(_ & k & Hk & ->)|K]]]]].
  - rewrite (ThermProof.row_0 o P sm sr ea src PL TH Q q OK HG HB HV 0 ltac:(lia)). rewrite QV, <- E0. ring.
  - rewrite (ThermProof.row_1 o P sm sr ea src PL TH Q q OK HG HB HV 0 ltac:(lia)). rewrite Rmult_plus_distr_r, rev_1.
    assert (A := Ev 0 ltac:(lia)). assert (B := Ev 1 ltac:(lia)). assert (C := Ev 2 ltac:(lia)). unfold delta in A, B, C. cbn [Nat.eqb] in A, B, C.
    enough (X : vv 0%nat * pp - sum3 (fun k => ss k * vv k) = s * r * dot3 vv uu) by lra.
    unfold dot3, sum3. replace (ss 0%nat) with (pp * 1 - s * (r * uu 0%nat)) by lra. replace (ss 1%nat) with (- (s * (r * uu 1%nat))) by lra. replace (ss 2%nat) with (- (s * (r * uu 2%nat))) by lra. ring.
  - rewrite (ThermProof.row_v o P sm sr ea src PL TH Q q OK HG HB HV 0 ltac:(lia)) by exact Hk. rewrite QV. assert (E := Ev k Hk).
    transitivity (vv k * vv 0%nat * q 0%nat + r * uu k * vv 0%nat + vv k * (r * uu 0%nat) + (pp * delta k 0 - ss k)); [ring|]. rewrite <- E, <- E0. ring.
  - rewrite (ThermProof.row_A o P sm sr ea src PL TH Q q OK HG HB HV 0 ltac:(lia)) by assumption. rewrite <- EA by assumption. unfold get_A. ring.
  - rewrite (ThermProof.row_J o P sm sr ea src PL TH Q q OK HG HB HV 0 ltac:(lia)) by exact Hk. rewrite <- EJ by exact Hk. rewrite QJ.
    replace (Q (14 + k)%nat * uu 0%nat) with (JJ k * (s * q 0%nat)) by (rewrite E0; unfold ThermProof.JJ; field; lra). ring.
  - cbn [b2n Nat.mul Nat.add] in K. destruct (le_lt_dec (V o - LSET o) i) as [G|L].
    + rewrite (ThermProof.row_ls o P sm sr ea src PL TH Q q OK HG HB HV 0 ltac:(lia)) by lia. rewrite Rmult_plus_distr_r, Els by lia. ring.
    + assert (V1 : V o = (17 + b2n (MULTI o) + LSET o)%nat) by (unfold V; rewrite (VI o P PL), TH; cbn [b2n]; lia).
      destruct (MULTI o) eqn:MU; cbn [b2n] in V1; [|lia]. assert (M : mV o = 17%nat) by (unfold mV; rewrite (VI o P PL), TH; reflexivity).
      assert (E : i = mV o) by lia. rewrite E. rewrite (ThermProof.row_mV o P sm sr ea src PL TH Q q OK HG HB HV 0 ltac:(lia) MU).
      rewrite Rmult_plus_distr_r, (EmV eq_refl). ring.
Qed.
End Rev.

Section Vel.
Variable o : options.
Variable P : par.
Variable sm : vec -> R * R * R.
Hypothesis PL : plain o P.
Hypothesis TH : THERMAL o = true.
Variable Q : vec.
Hypothesis OK : eos_ok (prm P) (Q 0%nat).
Hypothesis HG : Gamma_MG (prm P) (Q 0%nat) <> 0.
Hypothesis HB : b02 (prm P) <> 0.
Variable d : vec.
Hypothesis DZ : forall k, (5 <= k < 11)%nat -> d k = 0.
Hypothesis DZ' : forall k, (15 <= k)%nat -> d k = 0.
Notation r := (Q 0%nat).
Notation p := (pressure o P sm Q).
Notation moved := (moved o P sm Q d).
Notation w := (w o P sm Q d).
Notation tp := (Cvec_to_Pvec o P sm). Notation tc := (Pvec_to_Cvec o P).

Lemma wt_J i : (i < 3)%nat -> is_derive (fun t : R => moved t (14 + i)%nat) 0 (Q (14 + i)%nat / r * d 0%nat + r * d (14 + i)%nat).
Proof.
  intros Hi. assert (VIo := VI' o P PL). apply (is_derive_ext (fun t => (t * d (14 + i)%nat + Q (14 + i)%nat / r) * (t * d 0%nat + r))).
  - intro t. unfold RConsProof3.moved. rewrite (tc_J o P VIo), (tp_J o P sm VIo), (tp_0 o P sm VIo) by assumption. reflexivity.
  - set (c := Q (14 + i)%nat / r). auto_derive; [exact I|cbn [Nat.add]; ring].
Qed.
Lemma wt_mV : MULTI o = true -> is_derive (fun t : R => moved t (mV o)) 0 (Q (mV o) / r * d 0%nat).
Proof.
  intros MU. assert (VIo := VI' o P PL). assert (M : mV o = 17%nat) by (unfold mV; rewrite VIo, TH; reflexivity).
  apply (is_derive_ext (fun t => Q (mV o) / r * (t * d 0%nat + r))).
  - intro t. unfold RConsProof3.moved. rewrite (tc_l o P VIo) by exact MU. rewrite (tp_l o P sm VIo), (tp_0 o P sm VIo) by exact MU.
    rewrite (DZ' (mV o)) by lia. match goal with |- ?a = ?b => change (@eq R a b) end. ring.
  - set (c := Q (mV o) / r). auto_derive; [exact I|ring].
Qed.
Lemma wt_rest k : (17 <= k)%nat -> (MULTI o = true -> k <> mV o) -> is_derive (fun t : R => moved t k) 0 0.
Proof.
  intros Hk N. apply (is_derive_ext (fun _ => tp Q k)).
  - intro t. unfold RConsProof3.moved. rewrite (tc_rest o P _ k) by (rewrite ?TH; cbn; lia || exact N). rewrite (DZ' k) by lia.
    match goal with |- ?a = ?b => change (@eq R a b) end. ring.
  - exact (is_derive_const (V := R_NormedModule) (tp Q k) 0).
Qed.
Lemma wt_1 : ex_derive (fun t : R => moved t 1%nat) 0.
Proof.
  assert (VIo := VI' o P PL). assert (R1 := r_pos' P Q OK).
  set (e := fun t : R => E_1 (prm P) (r + t * d 0%nat) (p + t * d 1%nat)).
  set (kin := fun t : R => dot3 (fun i => t * d (11 + i)%nat + Q (2 + i)%nat / r) (fun i => t * d (11 + i)%nat + Q (2 + i)%nat / r) / 2).
  set (dg := fun t : R => devGsq (fun i j => get_A Q i j + t * (if Nat.eqb j 0 then d (2 + i)%nat else 0))).
  set (he := fun t : R => ca2 (prm P) * dot3 (fun i => t * d (14 + i)%nat + Q (14 + i)%nat / r) (fun i => t * d (14 + i)%nat + Q (14 + i)%nat / r) / 2).
  set (rc := fun t : R => if (-1 <? REACTION P)%Z then Qc P * (t * d (mV o) + tp Q (mV o) - 1) else 0).
  apply (ex_derive_ext_loc (fun t : R => (r + t * d 0%nat) * (e t + kin t + C_0 (prm P) (r + t * d 0%nat) / 4 * dg t + he t + rc t))).
  - eapply filter_imp; [|exact (near_ok P Q OK HG d)]. intros t (N & G). unfold RConsProof3.moved.
    rewrite (tc_1 o P VIo (HR' o P PL)) by (rewrite (tp_0 o P sm VIo); lra). rewrite TH, (tp_0 o P sm VIo), (tp_1 o P sm VIo).
    replace (t * d 0%nat + r) with (r + t * d 0%nat) by ring. replace (t * d 1%nat + p) with (p + t * d 1%nat) by ring. unfold e, kin, dg, rc, he.
    rewrite (devGsq_meq (fun i j => get_A Q i j + t * (if Nat.eqb j 0 then d (2 + i)%nat else 0)) (fun i j => t * d (2 + 3 * j + i)%nat + tp Q (2 + 3 * j + i)%nat)).
    + unfold dot3, sum3, get_rhoJ. rewrite !(tp_v o P sm VIo), !(tp_J o P sm VIo) by (assumption || lia). reflexivity.
    + intros i j Hi Hj. rewrite (tp_A o P sm VIo) by assumption. destruct (Nat.eqb_spec j 0) as [->|NJ]; [rewrite Nat.mul_0_r, Nat.add_0_r|rewrite DZ by lia]; ring.
  - assert (A := dp_ref_ok _ _ OK). assert (B := de_ref_ok _ _ OK). assert (C := dGamma_ok _ _ OK). assert (D0 := dC0_ok _ _ OK HG).
    assert (De : ex_derive e 0).
    { unfold e, E_1. auto_derive. rewrite !Rmult_0_l, !Rplus_0_r. repeat split; try (eexists; eassumption).
      apply Rmult_integral_contrapositive_currified; [lra|exact HG]. }
    assert (Dk : ex_derive kin 0) by (unfold kin, dot3, sum3; auto_derive; exact I).
    assert (Dh : ex_derive he 0) by (unfold he, dot3, sum3; auto_derive; exact I).
    assert (Dg : ex_derive dg 0) by (unfold dg, devGsq, dot3, sum3; cbn [Nat.eqb]; auto_derive; exact I).
    assert (Dr : ex_derive rc 0) by (unfold rc; destruct (-1 <? REACTION P)%Z; auto_derive; exact I).
    auto_derive. rewrite !Rmult_0_l, !Rplus_0_r. repeat split; try assumption. eexists; exact D0.
Qed.
Lemma wt_ok : has_velocity (fun k t => moved t k) 0 w.
Proof.
  intro k. unfold RConsProof5.w. apply Derive_correct.
  destruct (index_cases true k) as [->|[->|[(i & Hi & ->)|[(m & n & Hm & Hn & ->)|[(_ & i & Hi & ->)|K]]]]].
  - eexists; exact (w_0 o P sm PL Q d).
  - exact wt_1.
  - eexists; exact (w_v o P sm PL Q d i Hi).
  - eexists; exact (w_A o P sm PL Q d DZ m n Hm Hn).
  - eexists; exact (wt_J i Hi).
  - cbn [b2n Nat.mul Nat.add] in K. destruct (MULTI o) eqn:MU.
    + destruct (Nat.eq_dec k (mV o)) as [->|N]; [eexists; exact (wt_mV MU)|eexists; apply wt_rest; [exact K|intros _; exact N]].
    + eexists; apply wt_rest; [exact K|congruence].
Qed.
Lemma WtJ i : (i < 3)%nat -> jj Q w i = d (14 + i)%nat.
Proof.
  intros Hi. unfold jj, JJ. replace (w (14 + i)%nat) with (Q (14 + i)%nat / r * d 0%nat + r * d (14 + i)%nat)
    by (symmetry; apply is_derive_unique, wt_J, Hi).
  rewrite (W0 o P sm PL Q d). assert (R1 := r_pos' P Q OK). field. lra.
Qed.
Lemma Wtp : ppt o P sm Q w = d 1%nat.
Proof.
  assert (VIo := VI' o P PL).
  assert (C := pressure_curve (fun k t => moved t k) w 0 wt_ok o P sm). rewrite (moved_now o P sm PL Q OK HG d) in C. specialize (C OK HG (HM' o P PL)).
  unfold de_curve in C. rewrite (moved_now o P sm PL Q OK HG d), TH, VIo in C. cbv zeta in C.
  assert (D := p_step o P sm PL Q OK HG d). 
  assert (E := is_derive_unique _ _ _ D). assert (F := is_derive_unique _ _ _ C). 
  transitivity (Derive (fun t : R => pressure o P sm (moved t)) 0); [|exact E].
  etransitivity; [|symmetry; exact F]. unfold ppt, det_, de_, jj, JJ, vv, uu, vv, get_rhov, get_rhoJ. f_equal. f_equal. ring.
Qed.
End Vel.
