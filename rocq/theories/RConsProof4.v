(** From the acoustic eigenproblem back to eigenvectors of the whole system; the velocity of a moved state. *)
From Coq Require Import Reals ZArith Lra Psatz Lia FunctionalExtensionality.
From Coquelicot Require Import Coquelicot.
From Verif Require Import Base Options Sum Mat3 PhysModel PhysInst PhysSpec PhysProof PhysProof2 PhysProof5 PhysProps PhysProof7 RiemannProof RConsProof3.
From Verif Require EqModel EqSpec.
Open Scope R_scope.

Section Rev.
Variable o : options.
Variable P : par.
Variable sm : vec -> R * R * R.
Variables (sr : mat -> R) (ea : EqModel.mat -> vec -> vec) (src : vec -> vec).
Hypothesis PL : plain o P.
Hypothesis TH : THERMAL o = false.
Variables Q q : vec.
Hypothesis OK : eos_ok (prm P) (Q 0%nat).
Hypothesis HG : Gamma_MG (prm P) (Q 0%nat) <> 0.
Hypothesis HB : b02 (prm P) <> 0.
Notation r := (Q 0%nat).
Notation p := (pressure o P sm Q).
Notation vv := (vv Q). Notation uu := (uu Q q). Notation pp := (pp o P sm Q q). Notation ss := (ss_ P Q q 0).
Hypothesis HC : 0 <= (p / (r * r) - dEdrho o P sm Q) / dEdp o P sm Q.
Variable s : R.
Hypothesis E0 : s * q 0%nat = r * uu 0%nat.
Hypothesis Ev : forall i, (i < 3)%nat -> s * (r * uu i) = pp * delta i 0 - ss i.
Hypothesis EA : forall m n, (m < 3)%nat -> (n < 3)%nat -> s * get_A q m n = delta n 0 * mvec (get_A Q) uu m.
Hypothesis Ep : s * pp = r * c_0 o P sm Q * c_0 o P sm Q * uu 0%nat + sum3 (fun k => (sigma_col P Q 0 k - r * dsigmadrho P Q 0 k) * uu k).
Hypothesis EmV : MULTI o = true -> s * q (mV o) = Q (mV o) * uu 0%nat.
Hypothesis Els : forall k, (V o - LSET o <= k < V o)%nat -> s * q k = 0.
Lemma rev_de : s * de_ o P Q q = uu 0%nat * p / r - dot3 (sigma_col P Q 0) uu / r - dC_0drho (prm P) r / 4 * devGsq (get_A Q) * (r * uu 0%nat)
  - sum3 (fun m => dEdA P Q m 0%nat * mvec (get_A Q) uu m).
Proof.
  assert (R0 : 0 < r) by apply OK. set (X := uu 0%nat * p / r - _ - _ - _).
  assert (D : 1 / dedp (prm P) r * (X - dedrho (prm P) r p * (r * uu 0%nat)) = s * pp).
  { rewrite Ep. unfold X.
    unfold c_0. set (Y := _ / dEdp o P sm Q) in *.
    replace (r * sqrt Y * sqrt Y) with (r * Y) by (rewrite Rmult_assoc, sqrt_sqrt by exact HC; reflexivity).
    unfold Y, dEdrho, dEdp. rewrite (HM o P PL).
    assert (SG : forall k, (k < 3)%nat -> sigma_col P Q 0 k = - r * c_s2 (prm P) r * shape (get_A Q) 0 k).
    { intros k Hk. rewrite sigma_col_shape. rewrite shape_sym by (assumption || lia). reflexivity. }
    assert (AU : sum3 (fun m => dEdA P Q m 0%nat * mvec (get_A Q) uu m) = C_0 (prm P) r * sum3 (fun k => shape (get_A Q) 0 k * uu k))
      by (unfold dEdA, mscal, mvec, shape, sum3; ring).
    rewrite AU. unfold dsigmadrho, dot3, sum3. rewrite !SG by lia. unfold dedp, C_0, dc_s2drho.
    set (a0 := shape (get_A Q) 0 0). set (a1 := shape (get_A Q) 0 1). set (a2 := shape (get_A Q) 0 2).
    assert (CS : c_s2 (prm P) r <> 0) by (unfold c_s2; apply Rmult_integral_contrapositive; split; [exact HB|]; apply Rgt_not_eq, exp_pos).
    assert (HG' := HG). field. repeat split; try assumption; lra. }
  assert (N : 1 / dedp (prm P) r <> 0).
  { unfold dedp. replace (1 / (1 / (r * Gamma_MG (prm P) r))) with (r * Gamma_MG (prm P) r) by (field; split; [exact HG|lra]).
    apply Rmult_integral_contrapositive_currified; [lra|exact HG]. }
  assert (D2 : s * pp = 1 / dedp (prm P) r * (s * de_ o P Q q - dedrho (prm P) r p * (r * uu 0%nat))).
  { rewrite <- E0. unfold PhysProof7.pp. ring. }
  rewrite D2 in D. apply Rmult_eq_reg_l in D; [|exact N]. lra.
Qed.
Lemma rev_1 : s * q 1%nat = uu 0%nat * (Q 1%nat + p) + s * r * dot3 vv uu - dot3 (sigma_col P Q 0) uu.
Proof.
  assert (R0 : 0 < r) by apply OK. assert (D := rev_de).
  assert (RC : s * (if Z.ltb (-1) (REACTION P) then Qc P * ((q (mV o) - Q (mV o) / r * q 0%nat) / r) else 0) = 0).
  { destruct (Z.ltb (-1) (REACTION P)) eqn:RE; [|ring]. apply Z.ltb_lt in RE. assert (E := EmV (HR o P PL RE)).
    transitivity (Qc P / r * (s * q (mV o) - Q (mV o) / r * (s * q 0%nat))); [field; lra|]. rewrite E, E0. field. lra. }
  assert (AA : s * frob3 (dEdA P Q) (get_A q) = sum3 (fun m => dEdA P Q m 0%nat * mvec (get_A Q) uu m)).
  { transitivity (sum3 (fun m => sum3 (fun n => dEdA P Q m n * (s * get_A q m n)))); [unfold frob3, sum3; ring|].
    unfold sum3. rewrite !EA by lia. unfold delta; cbn [Nat.eqb]; ring. }
  unfold de_ in D.
  match type of D with s * (?a - ?b - (?c + ?e) - ?f) = _ => assert (D' : s * a - s * b - s * c - s * e - s * f = s * (a - b - (c + e) - f)) by ring end.
  rewrite D, RC, AA in D'. 
  assert (D3 : s * ((q 1%nat - Q 1%nat / r * q 0%nat) / r) = (s * q 1%nat - Q 1%nat * uu 0%nat) / r).
  { transitivity ((s * q 1%nat - Q 1%nat / r * (s * q 0%nat)) / r); [field; lra|]. rewrite E0. field. lra. }
  rewrite D3 in D'.
  assert (D4 : s * (dC_0drho (prm P) r / 4 * devGsq (get_A Q) * q 0%nat) = dC_0drho (prm P) r / 4 * devGsq (get_A Q) * (r * uu 0%nat)) by (rewrite <- E0; ring).
  rewrite D4 in D'.
  assert (D5 : (s * q 1%nat - Q 1%nat * uu 0%nat) / r = uu 0%nat * p / r - dot3 (sigma_col P Q 0) uu / r + s * dot3 vv uu) by lra.
  apply Rmult_eq_reg_r with (/ r); [|apply Rinv_neq_0_compat; lra].
  transitivity ((s * q 1%nat - Q 1%nat * uu 0%nat) / r + Q 1%nat * uu 0%nat / r); [field; lra|]. rewrite D5. field. lra.
Qed.
Lemma rev_eigen : forall i, (i < V o)%nat ->
  rsum (V o) (fun j => EqModel.system_matrix o (gpr o P sm sr ea src) Q 0 i j * q j) = (vv 0%nat + s) * q i.
Proof.
  intros i Hi. assert (R0 : 0 < r) by apply OK.
  assert (QV : forall i, q (2 + i)%nat = vv i * q 0%nat + r * uu i) by (intro k; unfold PhysProof7.uu; field; lra).
  assert (V14 : (14 <= V o)%nat) by exact (V_ge o P PL 0 ltac:(lia)).
  destruct (index_cases false i) as [->|[->|[(k & Hk & ->)|[(m & n & Hm & Hn & ->)|[(T & _)|K]]]]]; [| | | |discriminate|].
  - rewrite (row_0 o P sm sr ea src PL TH Q q OK HG HB 0 ltac:(lia)). rewrite QV, <- E0. ring.
  - rewrite (row_1 o P sm sr ea src PL TH Q q OK HG HB 0 ltac:(lia)). rewrite Rmult_plus_distr_r, rev_1.
    assert (A := Ev 0 ltac:(lia)). assert (B := Ev 1 ltac:(lia)). assert (C := Ev 2 ltac:(lia)). unfold delta in A, B, C. cbn [Nat.eqb] in A, B, C.
    enough (X : vv 0%nat * pp - sum3 (fun k => ss k * vv k) = s * r * dot3 vv uu) by lra.
    unfold dot3, sum3. replace (ss 0%nat) with (pp * 1 - s * (r * uu 0%nat)) by lra. replace (ss 1%nat) with (- (s * (r * uu 1%nat))) by lra. replace (ss 2%nat) with (- (s * (r * uu 2%nat))) by lra. ring.
  - rewrite (row_v o P sm sr ea src PL TH Q q OK HG HB 0 ltac:(lia)) by exact Hk. rewrite QV. assert (E := Ev k Hk).
    transitivity (vv k * vv 0%nat * q 0%nat + r * uu k * vv 0%nat + vv k * (r * uu 0%nat) + (pp * delta k 0 - ss k)); [ring|]. rewrite <- E, <- E0. ring.
  - rewrite (row_A o P sm sr ea src PL TH Q q OK HG HB 0 ltac:(lia)) by assumption. rewrite <- EA by assumption. unfold get_A. ring.
  - cbn [b2n Nat.mul Nat.add] in K. destruct (le_lt_dec (V o - LSET o) i) as [G|L].
    + rewrite (row_ls o P sm sr ea src PL TH Q q OK HG HB 0 ltac:(lia)) by lia. rewrite Rmult_plus_distr_r, Els by lia. ring.
    + assert (V1 : V o = (14 + b2n (MULTI o) + LSET o)%nat) by (unfold V; rewrite (VI o P PL), TH; cbn [b2n]; lia).
      destruct (MULTI o) eqn:MU; cbn [b2n] in V1; [|lia]. assert (M : mV o = 14%nat) by (unfold mV; rewrite (VI o P PL), TH; reflexivity).
      assert (E : i = mV o) by lia. rewrite E. rewrite (row_mV o P sm sr ea src PL TH Q q OK HG HB 0 ltac:(lia) MU).
      rewrite Rmult_plus_distr_r, (EmV eq_refl). ring.
Qed.
End Rev.
