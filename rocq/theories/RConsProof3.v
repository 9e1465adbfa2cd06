(** Moving a state along a direction of primitive variables. *)
From Coq Require Import Reals ZArith Lra Psatz Lia FunctionalExtensionality.
From Coquelicot Require Import Coquelicot.
From Verif Require Import Base Options Sum Mat3 PhysModel PhysInst PhysSpec PhysProof PhysProof2 PhysProof5 PhysProps PhysProof7.
From Verif Require EqModel.
Open Scope R_scope.

Lemma shape_meq A B i j : meq A B -> (i < 3)%nat -> (j < 3)%nat -> shape A i j = shape B i j.
Proof.
  intros H Hi Hj. assert (G : meq (gram A) (gram B)) by (apply mmul_meq; [apply mtr_meq|]; exact H).
  assert (X : meq (AdevG A) (AdevG B)).
  { eapply meq_trans; [apply AdevG_prod|]. eapply meq_trans; [|apply meq_sym, AdevG_prod]. apply mmul_meq; [exact H|]. apply dev3_meq, G. }
  unfold shape. unfold sum3. rewrite !H, !X by lia. reflexivity.
Qed.
Lemma sigma_col_meq P Q Q' d i : Q 0%nat = Q' 0%nat -> meq (get_A Q) (get_A Q') -> (i < 3)%nat -> (d < 3)%nat -> sigma_col P Q d i = sigma_col P Q' d i.
Proof. intros E M Hi Hd. rewrite !sigma_col_shape, E, (shape_meq _ _ i d M Hi Hd). reflexivity. Qed.

Section Dir.
Variable o : options.
Variable P : par.
Variable sm : vec -> R * R * R.
Hypothesis PL : plain o P.
Variable Q : vec.
Hypothesis OK : eos_ok (prm P) (Q 0%nat).
Hypothesis HG : Gamma_MG (prm P) (Q 0%nat) <> 0.
Hypothesis HB : b02 (prm P) <> 0.
Variable d : vec.
Hypothesis DZ : forall k, (5 <= k < 11)%nat -> d k = 0.
Notation r := (Q 0%nat).
Notation p := (pressure o P sm Q).
Notation tp := (Cvec_to_Pvec o P sm). Notation tc := (Pvec_to_Cvec o P).
Definition moved (t : R) : vec := tc (fun i => t * d i + tp Q i).
Lemma VI' : VISCOUS o = true. Proof. apply PL. Qed.
Lemma HM' : PMULTI P = false. Proof. apply PL. Qed.
Lemma HR' : (-1 < REACTION P)%Z -> MULTI o = true. Proof. apply PL. Qed.
Lemma r_pos' : 0 < r. Proof. apply OK. Qed.

Lemma moved_0 t : moved t 0%nat = r + t * d 0%nat.
Proof. unfold moved. rewrite (tc_0 o P VI'), (tp_0 o P sm VI'). ring. Qed.
Lemma moved_A t i j : (i < 3)%nat -> (j < 3)%nat -> get_A (moved t) i j = get_A Q i j + t * (if Nat.eqb j 0 then d (2 + i)%nat else 0).
Proof.
  intros Hi Hj. unfold get_A at 1, moved. rewrite (tc_A o P VI'), (tp_A o P sm VI') by assumption.
  destruct (Nat.eqb_spec j 0) as [->|N]; [rewrite Nat.mul_0_r, Nat.add_0_r|rewrite DZ by lia]; ring.
Qed.
Lemma moved_v t i : (i < 3)%nat -> r + t * d 0%nat <> 0 -> moved t (2 + i)%nat / moved t 0%nat = Q (2 + i)%nat / r + t * d (11 + i)%nat.
Proof.
  intros Hi N. rewrite moved_0. unfold moved. rewrite (tc_v o P VI'), (tp_v o P sm VI'), (tp_0 o P sm VI') by assumption.
  assert (R0 := r_pos'). field. split; intro Z; solve [apply N; lra|lra].
Qed.
Lemma moved_J t : THERMAL o = true -> r + t * d 0%nat <> 0 -> moved t 14%nat / moved t 0%nat = Q 14%nat / r + t * d 14%nat.
Proof.
  intros T N. rewrite moved_0. unfold moved. change 14%nat with (14 + 0)%nat at 1 2. rewrite (tc_J o P VI') by (exact T || lia).
  rewrite (tp_J o P sm VI'), (tp_0 o P sm VI') by (exact T || lia). cbn [Nat.add].
  assert (R0 := r_pos'). field. split; intro Z; solve [apply N; lra|lra].
Qed.

Definition qA : vec := fun k => if Nat.eqb k 0 then d 0%nat else
  if Nat.eqb k 5 then d 2%nat else if Nat.eqb k 8 then d 3%nat else if Nat.eqb k 11 then d 4%nat else 0.
Lemma sig_step i : (i < 3)%nat ->
  is_derive (fun t : R => sigma_col P (moved t) 0 i) 0 (dsigmadrho P Q 0 i * d 0%nat + sum3 (fun m => dsigmadA_dir P Q 0 i m * d (2 + m)%nat)).
Proof.
  intros Hi.
  assert (D := sigma_curve (fun k t => Q k + t * qA k) qA 0).
  assert (HQ : forall k, is_derive (fun t : R => Q k + t * qA k) 0 (qA k)) by (intros k; auto_derive; [exact I|ring]).
  assert (E0 : at_time (fun k t => Q k + t * qA k) 0 = Q) by (apply functional_extensionality; intro k; unfold at_time; ring).
  specialize (D HQ P i 0%nat). rewrite E0 in D. specialize (D OK HB Hi ltac:(lia)).
  apply (is_derive_ext (fun t => sigma_col P (at_time (fun k t => Q k + t * qA k) t) 0 i)).
  - intro t. symmetry. apply sigma_col_meq; [rewrite moved_0; unfold at_time, qA; cbn; ring| |exact Hi|lia].
    intros a b Ha Hb. rewrite moved_A by assumption. unfold get_A, at_time, qA. idx3 a; idx3 b; cbn; ring.
  - evar_last; [exact D|].
    assert (SC := fun m Hm => stress_derivative_column P Q 0 i m Hi ltac:(lia) Hm). cbv zeta in SC.
    unfold sum3. rewrite !SC by lia. unfold get_A at 3 6 9 12 15 18 21 24 27, qA. cbn. 
    unfold get_A, qA. cbn. ring.
Qed.
Lemma near_ok : locally 0 (fun t : R => r + t * d 0%nat <> 0 /\ Gamma_MG (prm P) (r + t * d 0%nat) <> 0).
Proof.
  assert (R0 := r_pos').
  assert (NZ : forall f : R -> R, continuous f 0 -> f 0 <> 0 -> locally 0 (fun t => f t <> 0)).
  { intros f C N. apply (C (fun y => y <> 0)). exists (mkposreal (Rabs (f 0)) (Rabs_pos_lt _ N)). intros y By Z. subst y.
    unfold ball in By; cbn in By; unfold AbsRing_ball, abs, minus, plus, opp in By; cbn in By. rewrite Rplus_0_l, Rabs_Ropp in By. lra. }
  apply filter_and.
  - apply (NZ (fun t => r + t * d 0%nat)); [|lra]. apply (ex_derive_continuous (K := R_AbsRing) (V := R_NormedModule)). auto_derive. exact I.
  - apply (NZ (fun t => Gamma_MG (prm P) (r + t * d 0%nat))); [|rewrite Rmult_0_l, Rplus_0_r; exact HG].
    apply (ex_derive_continuous (K := R_AbsRing) (V := R_NormedModule)).
    assert (G := dGamma_ok _ _ OK). auto_derive. rewrite Rmult_0_l, Rplus_0_r. exists (dGamma_MG (prm P) r); exact G.
Qed.
Lemma moved_p t : r + t * d 0%nat <> 0 -> Gamma_MG (prm P) (r + t * d 0%nat) <> 0 -> pressure o P sm (moved t) = p + t * d 1%nat.
Proof.
  intros N G. rewrite <- (tp_1 o P sm VI'). unfold moved. rewrite (tp_tc o P sm VI' HM' HR').
  - rewrite (tp_1 o P sm VI'). ring.
  - rewrite (tp_0 o P sm VI'). lra.
  - rewrite (tp_0 o P sm VI'), Rplus_comm. exact G.
Qed.
Lemma p_step : is_derive (fun t : R => pressure o P sm (moved t)) 0 (d 1%nat).
Proof.
  apply (is_derive_ext_loc (fun t : R => p + t * d 1%nat)).
  - eapply filter_imp; [|exact near_ok]. intros t (N & G). symmetry. apply moved_p; assumption.
  - auto_derive; [exact I|ring].
Qed.
Lemma Sigma_step i : (i < 3)%nat -> is_derive (fun t : R => Sigma o P sm (moved t) 0 i) 0
  (- (dsigmadrho P Q 0 i * d 0%nat + sum3 (fun m => dsigmadA_dir P Q 0 i m * d (2 + m)%nat)) + (if Nat.eqb i 0 then d 1%nat else 0)).
Proof.
  intros Hi. assert (D := sig_step i Hi). assert (E := p_step). unfold Sigma.
  apply (is_derive_plus (V := R_NormedModule) (fun t => - sigma_col P (moved t) 0 i) (fun t => if Nat.eqb i 0 then pressure o P sm (moved t) else 0)).
  - apply (is_derive_opp (V := R_NormedModule)). exact D.
  - destruct (Nat.eqb i 0); [exact E|]. exact (is_derive_const (V := R_NormedModule) 0 0).
Qed.
Lemma T_step : cv (prm P) <> 0 -> Tref (prm P) = 0 ->
  is_derive (fun t : R => temperature o P sm (moved t)) 0 (dTdrho (prm P) r p * d 0%nat + dTdp (prm P) r * d 1%nat).
Proof.
  intros HC HT.
  apply (is_derive_ext_loc (fun t : R => temperature_mg (prm P) (r + t * d 0%nat) (p + t * d 1%nat))).
  - eapply filter_imp; [|exact near_ok]. intros t (N & G). unfold temperature. rewrite moved_p, moved_0 by assumption. reflexivity.
  - unfold temperature_mg. rewrite HT.
    apply (is_derive_ext (fun t => (p + t * d 1%nat - p_ref (prm P) (r + t * d 0%nat)) / ((r + t * d 0%nat) * Gamma_MG (prm P) (r + t * d 0%nat) * cv (prm P)))).
    { intro t. match goal with |- ?a = ?b => change (@eq R a b) end. ring. }
    assert (R0 := r_pos'). assert (A := dp_ref_ok _ _ OK). assert (C := dGamma_ok _ _ OK).
    auto_derive.
    + rewrite !Rmult_0_l, !Rplus_0_r. split; [eexists; exact A|]. split; [eexists; exact C|]. split; [|exact I].
      repeat apply Rmult_integral_contrapositive_currified; try assumption; lra.
    + rewrite !Rmult_0_l, !Rplus_0_r. change (fun x => p_ref (prm P) x) with (p_ref (prm P)). change (fun x => Gamma_MG (prm P) x) with (Gamma_MG (prm P)).
      rewrite (is_derive_unique _ _ _ A), (is_derive_unique _ _ _ C). unfold dTdrho, dTdp, dedp. field. repeat split; try assumption; lra.
Qed.
End Dir.
