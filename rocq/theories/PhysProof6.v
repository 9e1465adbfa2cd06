(** The source terms dissipate. *)
From Coq Require Import Reals ZArith Lra Psatz Lia.
From Coquelicot Require Import Coquelicot.
From Verif Require Import Base Options Sum Mat3 PhysModel PhysInst PhysSpec PhysProof PhysProof2 RiemannModel RiemannProof.
Import List ListNotations.
Open Scope R_scope.

Lemma cpow_nonneg : forall x y z, 0 <= x -> cpow x y = Some z -> 0 <= z.
Proof.
  intros x y z Hx. unfold cpow. destruct (Rlt_dec 0 x) as [L|L].
  - intros [= <-]. left. apply exp_pos.
  - assert (x = 0) by lra. subst x. destruct (is_int y).
    + destruct (Req_EM_T 0 0) as [_|N]; [|lra]. destruct (Rlt_dec y 0) as [Y|Y]; [discriminate|]. intros [= <-].
      unfold powerRZ. destruct (Int_part y) eqn:I; [lra|apply pow_le; lra|].
      exfalso. destruct (base_Int_part y) as [A B]. rewrite I in *. assert (Q := Pos2Z.neg_is_neg p). apply IZR_lt in Q. 
      assert (IZR (Z.neg p) <= -1) by (apply IZR_le; lia). lra.
    + destruct (Req_EM_T 0 0) as [_|N]; [|lra]. destruct (Rlt_dec 0 y); [|discriminate]. intros [= <-]. lra.
Qed.
Lemma frob_pos : forall A, 0 <= frobnorm A. Proof. intro A. apply sqrt_pos. Qed.
Lemma cs2_nonneg : forall MP r, 0 <= b02 MP -> 0 <= c_s2 MP r.
Proof. intros MP r H. unfold c_s2. apply Rmult_le_pos; [exact H|]. left. apply exp_pos. Qed.
Lemma cs2_pos : forall MP r, 0 < b02 MP -> 0 < c_s2 MP r.
Proof. intros MP r H. unfold c_s2. apply Rmult_lt_0_compat; [exact H|]. apply exp_pos. Qed.
Lemma sn_nonneg : forall s, 0 <= sigma_norm s. Proof. intro s. apply sqrt_pos. Qed.
Lemma omap2_some : forall f a b z, omap2 f a b = Some z -> exists x y, a = Some x /\ b = Some y /\ z = f x y.
Proof. intros f [x|] [y|] z H; try discriminate. injection H as <-. eauto. Qed.
Lemma div_nonneg : forall a b, 0 <= a -> 0 < b -> 0 <= a / b.
Proof. intros a b A B. apply Rmult_le_pos; [exact A|]. left. apply Rinv_0_lt_compat, B. Qed.

Lemma theta1_nonneg : forall P Q th, relax_ok P -> 0 < det3 (get_A Q) -> theta1inv P Q = Some th -> 0 <= th.
Proof.
  intros P Q th (R0 & B0 & M0 & N0 & Y0 & HS) D H. unfold theta1inv in H.
  assert (S2 : 0 < sqrt 2) by (apply sqrt_lt_R0; lra).
  destruct (SOLID P).
  - destruct (POWER_LAW P); [|injection H as <-; lra]. destruct (HS eq_refl eq_refl) as (B1 & T1 & Y1).
    apply omap2_some in H. destruct H as (x & y & Hx & Hy & ->).
    assert (X := cpow_nonneg _ _ _ (Rlt_le _ _ D) Hx).
    assert (Y : 0 <= y). { apply (fun A => cpow_nonneg _ _ _ A Hy). apply div_nonneg; [|exact Y1]. unfold cmin. destruct (Rlt_dec _ _); [lra|apply sn_nonneg]. }
    apply Rmult_le_pos; [|exact Y]. apply div_nonneg; [lra|]. apply Rmult_lt_0_compat; [apply cs2_pos, B1|exact T1].
  - destruct (BINGHAM P).
    + destruct (Rlt_dec _ _) as [L|L]; [|injection H as <-; lra].
      destruct (cpow _ _) as [x|] eqn:Hx; [|discriminate]. injection H as <-. assert (X := cpow_nonneg _ _ _ (Rlt_le _ _ D) Hx).
      apply Rmult_le_pos; [apply div_nonneg; [nra|lra]|].
      set (sn := frobnorm (PhysModel.sigma P Q) / sqrt 2) in *. clearbody sn.
      assert (sigY (prm P) / sn <= 1); [|lra]. apply Rmult_le_reg_r with sn; [lra|]. unfold Rdiv. rewrite Rmult_assoc, Rinv_l by lra. lra.
    + assert (C : forall z, omap2 (fun A53 m : R => A53 * rho0 (prm P) / (2 * m)) (cpow (det3 (get_A Q)) (5 / 3)) (cpow (mu (prm P)) (1 / nn (prm P))) = Some z -> 0 <= z).
      { intros z E. apply omap2_some in E. destruct E as (x & y & Hx & Hy & ->). assert (X := cpow_nonneg _ _ _ (Rlt_le _ _ D) Hx).
        unfold cpow in Hy. destruct (Rlt_dec 0 (mu (prm P))) as [_|N]; [|lra]. injection Hy as <-.
        apply div_nonneg; [nra|]. assert (0 < Rpower (mu (prm P)) (1 / nn (prm P))) by apply exp_pos. lra. }
      destruct (POWER_LAW P); [|apply C, H]. apply omap2_some in H. destruct H as (x & y & Hx & Hy & ->).
      apply Rmult_le_pos; [apply C, Hx|]. apply (fun A => cpow_nonneg _ _ _ A Hy). apply div_nonneg; [apply frob_pos|exact S2].
Qed.

(** ** the rows of the source *)
Section Src.
Variable o : options.
Variable P : par.
Variable K : rates.
Variable sm : vec -> R * R * R.
Hypothesis VI : VISCOUS o = true.
Variables Q S_ : vec.
Hypothesis HS : full_source o P K sm Q = Ok (Some S_).

Lemma src_shape : exists th rr, theta1inv P Q = Some th /\ S_ = PhysModel.source o P (fun _ => th) (theta2inv o P sm) (fun _ => rr) Q.
Proof.
  unfold full_source in HS. destruct (if (-1 <? REACTION P)%Z then reaction_rate o P K sm Q else Ok (Some 0)) as [rr| | |]; try discriminate.
  cbn [bind] in HS. rewrite VI in HS. destruct (theta1inv P Q) as [th|]; [|discriminate]. destruct rr as [rr|]; [|discriminate].
  injection HS as <-. exists th, rr. split; reflexivity.
Qed.
Lemma mV14 : (14 + 3 * b2n (THERMAL o) <= mV o)%nat. Proof. unfold mV. rewrite VI. cbn [b2n]. lia. Qed.
Ltac sv := assert (G := mV14); unfold PhysModel.source, set1, setseg; rewrite ?VI; destruct (-1 <? REACTION P)%Z, (THERMAL o); cbn [b2n Nat.mul Nat.add] in G;
   repeat match goal with |- context [Nat.eqb ?k (mV o)] => replace (Nat.eqb k (mV o)) with false by (symmetry; apply Nat.eqb_neq; lia) end; cbn [Nat.leb Nat.ltb Nat.eqb andb Nat.add Nat.sub Nat.mul]; try reflexivity.
Lemma src_0 : S_ 0%nat = 0.
Proof. destruct src_shape as (th & rr & _ & ->). sv. Qed.
Lemma src_1 : S_ 1%nat = 0.
Proof. destruct src_shape as (th & rr & _ & ->). sv. Qed.
Lemma src_v : forall i, (i < 3)%nat -> S_ (2 + i)%nat = body P i.
Proof. intros i Hi. destruct src_shape as (th & rr & _ & ->). idx3 i; sv. Qed.
Lemma src_A : exists th, theta1inv P Q = Some th /\ meq (get_A S_) (mscal (- (c_s2 (prm P) (Q 0%nat) * th)) (AdevG (get_A Q))).
Proof.
  destruct src_shape as (th & rr & E & ->). exists th. split; [exact E|]. intros i j Hi Hj. unfold get_A, mscal.
  transitivity (- dEdA_s P Q i j * th); [idx3 i; idx3 j; sv|]. unfold dEdA_s, mscal, get_A. ring.
Qed.
Lemma src_J : THERMAL o = true -> veq (get_rhoJ S_) (fun i => - Q 0%nat * dEdJ P Q i * theta2inv o P sm Q).
Proof.
  intros T i Hi. destruct src_shape as (th & rr & E & ->). assert (G := mV14). unfold get_rhoJ, PhysModel.source, set1, setseg. rewrite VI, T in *. cbn [b2n Nat.mul Nat.add] in G.
  destruct (-1 <? REACTION P)%Z; [replace (Nat.eqb (14 + i) (mV o)) with false by (symmetry; apply Nat.eqb_neq; lia)|]; idx3 i; reflexivity.
Qed.

(** ** the state along a curve driven by the source *)
Variable F : nat -> R -> R.
Variable t0 : R.
Hypothesis HF : has_velocity F t0 S_.
Hypothesis H0 : forall k, at_time F t0 k = Q k.

Lemma adj_trace : forall A B, det3 A * trace3 B = trace3 (mmul (adj3 A) (mmul A B)).
Proof. intros A B. unfold adj3. m3. ring. Qed.
Lemma det_curve : is_derive (fun t => det3 (get_A (at_time F t))) t0 (trace3 (mmul (adj3 (get_A Q)) (get_A S_))).
Proof.
  unfold get_A, at_time, det3. cbn [Nat.add Nat.mul].
  auto_derive; [repeat split; eexists; apply HF|]. rewrite !(fun k => is_derive_unique _ _ _ (HF k)).
  assert (X : forall k, F k t0 = Q k) by exact H0. rewrite !X. unfold adj3. m3. cbn [Nat.add Nat.mul]. ring.
Qed.
Lemma det_stationary : is_derive (fun t => det3 (get_A (at_time F t))) t0 0.
Proof.
  destruct src_A as (th & _ & E). replace 0 with (trace3 (mmul (adj3 (get_A Q)) (get_A S_))); [exact det_curve|].
  set (k := - (c_s2 (prm P) (Q 0%nat) * th)) in *. 
  transitivity (k * trace3 (mmul (adj3 (get_A Q)) (mmul (get_A Q) (dev3 (gram (get_A Q)))))).
  - unfold trace3, sum3. unfold mmul at 1 2 3. unfold sum3. rewrite !E by lia. unfold mscal. rewrite !AdevG_prod by lia. 
    set (W := mmul (get_A Q) (dev3 (gram (get_A Q)))). clearbody W. unfold mmul, sum3. ring.
  - rewrite <- adj_trace. unfold dev3, trace3, sum3, delta. cbn [Nat.eqb]. field.
Qed.
Lemma shear_decreases : relax_ok P -> 0 < det3 (get_A Q) -> exists l, l <= 0 /\ is_derive (fun t => devGsq (get_A (at_time F t))) t0 l.
Proof.
  intros OK D. destruct src_A as (th & T & E). assert (T0 := theta1_nonneg _ _ _ OK D T).
  assert (C0 := cs2_nonneg (prm P) (Q 0%nat) (proj1 (proj2 OK))).
  eexists. split; [|exact (devGsq_curve F S_ t0 HF)].
  set (B := AdevG (get_A (at_time F t0))). assert (EB : meq (AdevG (get_A Q)) B).
  { unfold B. apply AdevG_meq. intros i j _ _. unfold get_A. symmetry. apply H0. }
  assert (X : frob3 B (get_A S_) = - (c_s2 (prm P) (Q 0%nat) * th) * frob3 B B).
  { unfold frob3, sum3. rewrite !E by lia. unfold mscal. rewrite !EB by lia. ring. }
  rewrite X. assert (N := frob_nonneg B). assert (0 <= c_s2 (prm P) (Q 0%nat) * th) by (apply Rmult_le_pos; assumption). nra.
Qed.
(** the energy taken from the strain and the heat flux appears as internal energy *)
Lemma heats : relax_ok P -> 0 < det3 (get_A Q) -> (forall i, body P i = 0) -> (-1 <? REACTION P)%Z = false ->
  eos_ok (prm P) (Q 0%nat) -> Gamma_MG (prm P) (Q 0%nat) <> 0 -> 0 <= C_0 (prm P) (Q 0%nat) ->
  (THERMAL o = true -> 0 <= theta2inv o P sm Q) ->
  exists l, 0 <= l /\ is_derive (fun t => internal_energy o P (at_time F t)) t0 l.
Proof.
  intros OK D BF RE EO HG C0 TH. destruct src_A as (th & T & E). assert (T0 := theta1_nonneg _ _ _ OK D T).
  assert (C1 := cs2_nonneg (prm P) (Q 0%nat) (proj1 (proj2 OK))). assert (R0 : 0 < Q 0%nat) by exact (proj1 EO).
  assert (X0 : at_time F t0 0%nat = Q 0%nat) by apply H0.
  eexists. split; [|apply (ie_curve F S_ t0 HF o P sm); rewrite X0; assumption].
  unfold de_curve. rewrite X0, VI, RE, src_0, src_1. cbv zeta.
  assert (V0 : dot3 (fun i => get_rhov (at_time F t0) i / Q 0%nat) (fun i => (get_rhov S_ i - get_rhov (at_time F t0) i / Q 0%nat * 0) / Q 0%nat) = 0).
  { unfold dot3, sum3. unfold get_rhov at 2 5 8. rewrite !src_v, !BF by lia. field. lra. }
  rewrite V0.
  set (B := AdevG (get_A (at_time F t0))). assert (EB : meq (AdevG (get_A Q)) B).
  { unfold B. apply AdevG_meq. intros i j _ _. unfold get_A. symmetry. apply H0. }
  assert (X : frob3 (dEdA P (at_time F t0)) (get_A S_) = - (C_0 (prm P) (Q 0%nat) * (c_s2 (prm P) (Q 0%nat) * th)) * frob3 B B).
  { unfold dEdA. rewrite X0. fold B. unfold frob3, sum3. rewrite !E by lia. unfold mscal. rewrite !EB by lia. ring. }
  rewrite X. assert (N := frob_nonneg B). assert (NN : 0 <= C_0 (prm P) (Q 0%nat) * (c_s2 (prm P) (Q 0%nat) * th) * frob3 B B) by exact (Rmult_le_pos _ _ (Rmult_le_pos _ _ C0 (Rmult_le_pos _ _ C1 T0)) N).
  assert (JJ : (if THERMAL o then ca2 (prm P) * dot3 (fun i => get_rhoJ (at_time F t0) i / Q 0%nat) (fun i => (get_rhoJ S_ i - get_rhoJ (at_time F t0) i / Q 0%nat * 0) / Q 0%nat) else 0) <= 0).
  { destruct (THERMAL o) eqn:TT; [|lra]. specialize (TH eq_refl).
    assert (JE : veq (get_rhoJ (at_time F t0)) (get_rhoJ Q)) by (intros i _; unfold get_rhoJ; apply H0).
    unfold dot3, sum3. rewrite !(src_J TT), !JE by lia. unfold dEdJ. set (k := theta2inv o P sm Q) in *. clearbody k.
    set (j0 := get_rhoJ Q 0%nat). set (j1 := get_rhoJ Q 1%nat). set (j2 := get_rhoJ Q 2%nat). set (c := ca2 (prm P)).
    match goal with |- ?e <= 0 => replace e with (- (k * ((c * j0 / Q 0%nat) * (c * j0 / Q 0%nat) + (c * j1 / Q 0%nat) * (c * j1 / Q 0%nat) + (c * j2 / Q 0%nat) * (c * j2 / Q 0%nat)))) by (field; lra) end.
    assert (0 <= k * ((c * j0 / Q 0%nat) * (c * j0 / Q 0%nat) + (c * j1 / Q 0%nat) * (c * j1 / Q 0%nat) + (c * j2 / Q 0%nat) * (c * j2 / Q 0%nat))); [|lra].
    apply Rmult_le_pos; [exact TH|]. assert (Z := fun x => Rle_0_sqr x). unfold Rsqr in Z. repeat apply Rplus_le_le_0_compat; apply Z. }
  match goal with |- 0 <= (?a - ?b * 0) / ?c - 0 - _ - _ - 0 => replace ((a - b * 0) / c) with 0 by (field; lra) end. lra.
Qed.
End Src.
