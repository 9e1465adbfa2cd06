(** The constitutive functions and the flux of a rotated state. *)
From Coq Require Import Reals Lra Psatz Lia.
From Verif Require Import Base Options Sum Mat3 PhysModel PhysInst PhysSpec PhysProof2 RiemannModel RiemannProof.
From Verif Require EqModel EqSpec EqProof.
Import List ListNotations.
Open Scope R_scope.

Lemma devGsq_meq' : forall A B, meq A B -> devGsq A = devGsq B.
Proof. exact devGsq_meq. Qed.
Lemma dot3_scal : forall (r : R) u, dot3 (fun i => u i / r) (fun i => u i / r) = dot3 u u / (r * r).
Proof. intros r u. m3. unfold Rdiv. rewrite Rinv_mult. ring. Qed.
Lemma dot3_ext : forall u v, veq u v -> dot3 u u = dot3 v v.
Proof. intros u v H. unfold dot3, sum3. rewrite !H by lia. reflexivity. Qed.

Section Rot.
Variable o : options.
Variable M : mat3.
Hypothesis OR : orthogonal M.
Variable P : par.
Variable sm : vec -> R * R * R.
Hypothesis VI : VISCOUS o = true.
Hypothesis HM : PMULTI P = false.
Hypothesis HR : (-1 < REACTION P)%Z -> MULTI o = true.
Notation conj A := (mmul (mmul M A) (mtr M)).
Notation rot Q := (rotate_tensors o Q M).

Lemma rot_mV : forall Q, rot Q (mV o) = Q (mV o).
Proof. intro Q. apply rot_rest. unfold mV. rewrite VI. cbn [b2n]. lia. Qed.
Lemma rot_getA : forall Q, meq (get_A (rot Q)) (conj (get_A Q)).
Proof. intros Q i j Hi Hj. apply rot_A; assumption. Qed.
Lemma rot_getv : forall Q, veq (get_rhov (rot Q)) (mvec M (get_rhov Q)).
Proof. intros Q i Hi. apply rot_v; assumption. Qed.
Lemma rot_getJ : forall Q, THERMAL o = true -> veq (get_rhoJ (rot Q)) (mvec M (get_rhoJ Q)).
Proof. intros Q T i Hi. apply rot_J; assumption. Qed.
Lemma rot_energy : forall Q, internal_energy o P (rot Q) = internal_energy o P Q.
Proof.
  intros Q. unfold internal_energy, E_3, E_2A, E_2J. rewrite rot_0, rot_1, rot_mV.
  rewrite (devGsq_meq _ _ (rot_getA Q)), (conj_devGsq M OR). rewrite !dot3_scal.
  rewrite (dot3_ext _ _ (rot_getv Q)), (conj_dot M OR).
  destruct (THERMAL o) eqn:T; [|reflexivity]. rewrite (dot3_ext _ _ (rot_getJ Q T)), (conj_dot M OR). reflexivity.
Qed.
Lemma rot_pressure : forall Q, pressure o P sm (rot Q) = pressure o P sm Q.
Proof. intros Q. unfold pressure. rewrite HM, rot_0, rot_energy. reflexivity. Qed.
Lemma rot_shape : forall A B i d, meq B (conj A) -> (i < 3)%nat -> (d < 3)%nat -> shape B i d = conj (fun a b => shape A a b) i d.
Proof.
  intros A B i d H Hi Hd. change (shape B i d) with (mmul (mtr (AdevG B)) B i d).
  rewrite (mmul_meq _ _ _ _ (mtr_meq _ _ (meq_trans _ _ _ (AdevG_meq _ _ H) (conj_AdevG M OR A))) H) by assumption.
  rewrite (mmul_meq _ _ _ _ (conj_tr M (AdevG A)) (meq_refl _)) by assumption. rewrite (conj_mul M OR) by assumption. reflexivity.
Qed.
Lemma rot_sigma_col : forall Q d i, (i < 3)%nat -> (d < 3)%nat ->
  sigma_col P (rot Q) d i = conj (fun a b => sigma_col P Q b a) i d.
Proof.
  intros Q d i Hi Hd. rewrite sigma_col_shape, rot_0. rewrite (rot_shape _ _ _ _ (rot_getA Q)) by assumption.
  unfold mmul, mtr, sum3. rewrite !sigma_col_shape. ring.
Qed.
Lemma rot_sigma : forall Q, meq (sigma P (rot Q)) (conj (sigma P Q)).
Proof.
  intros Q i j Hi Hj. change (sigma P (rot Q) i j) with (sigma_col P (rot Q) j i). rewrite rot_sigma_col by assumption. reflexivity.
Qed.
Lemma rot_temperature : forall Q, temperature o P sm (rot Q) = temperature o P sm Q.
Proof. intros Q. unfold temperature. rewrite rot_0, rot_pressure. reflexivity. Qed.

Variables (sr : mat -> R) (ea : EqModel.mat -> vec -> vec) (src : vec -> vec).
Notation ph := (gpr o P sm sr ea src).
Definition normal_flux (Q : vec) (d : nat) : vec :=
  fun k => sum3 (fun c => M d c * EqModel.flux o ph (fun _ => 0) Q c k).

Lemma vel_rot : forall Q, veq (EqSpec.velocity (rot Q)) (mvec M (EqSpec.velocity Q)).
Proof. intros Q i Hi. unfold EqSpec.velocity. rewrite rot_0, rot_v by assumption. m3. unfold get_rhov, Rdiv. ring. Qed.
Lemma Av_rot : forall Q, veq (mvec (EqSpec.Amat (rot Q)) (EqSpec.velocity (rot Q))) (mvec M (mvec (EqSpec.Amat Q) (EqSpec.velocity Q))).
Proof.
  intros Q. eapply veq_trans; [apply mvec_ext; [apply rot_getA|apply vel_rot]|]. apply conj_vec. exact OR.
Qed.
Lemma sv_rot : forall Q d, (d < 3)%nat -> dot3 (sigma_col P (rot Q) d) (EqSpec.velocity (rot Q))
  = sum3 (fun c => M d c * dot3 (sigma_col P Q c) (EqSpec.velocity Q)).
Proof.
  intros Q d Hd.
  set (N := fun a b => sigma_col P Q b a).
  transitivity (mvec (conj (mtr N)) (mvec M (EqSpec.velocity Q)) d).
  - unfold dot3, sum3. rewrite !rot_sigma_col, !vel_rot by lia. fold N. m3. ring.
  - rewrite (conj_vec M OR) by exact Hd. reflexivity.
Qed.
Lemma flux0 : forall Q d k, (d < 3)%nat -> Q 0%nat <> 0 -> EqModel.flux o ph (fun _ => 0) Q d k = EqSpec.physical_flux o ph Q d k.
Proof. intros Q d k Hd Hq. rewrite (EqProof.flux_spec o ph VI) by assumption. destruct (_ && _)%bool; ring. Qed.

Notation nf Q d := (fun k => sum3 (fun c => M d c * EqSpec.physical_flux o ph Q c k)).
Lemma pf_rot : forall Q d k, (d < 3)%nat -> Q 0%nat <> 0 ->
  EqSpec.physical_flux o ph (rot Q) d k = rot (nf Q d) k.
Proof.
  intros Q d k Hd Hq.
  assert (PR : EqModel.pressure ph (rot Q) = EqModel.pressure ph Q) by apply rot_pressure.
  destruct (index_cases (THERMAL o) k) as [->|[->|[(i & Hi & ->)|[(i & j & Hi & Hj & ->)|[(T & i & Hi & ->)|H]]]]].
  - rewrite rot_0. unfold EqSpec.physical_flux. cbn [Nat.eqb]. rewrite rot_0, vel_rot by exact Hd. m3. ring.
  - rewrite rot_1. unfold EqSpec.physical_flux. cbn [Nat.eqb]. rewrite PR, rot_1, vel_rot by exact Hd.
    change (EqModel.sigma ph) with (sigma_col P). rewrite sv_rot by exact Hd.
    unfold EqSpec.heat_flux. destruct (THERMAL o) eqn:T.
    + rewrite PR, rot_0. rewrite (rot_J o M Q d T Hd). m3. unfold get_rhoJ, Rdiv. ring.
    + m3. ring.
  - rewrite rot_v by exact Hi. unfold mvec, get_rhov.
    assert (F : forall Q e a, (a < 3)%nat -> EqSpec.physical_flux o ph Q e (2 + a)%nat = Q 0%nat * EqSpec.velocity Q a * EqSpec.velocity Q e + EqModel.pressure ph Q * delta a e - sigma_col P Q e a).
    { intros Q' e a Ha. unfold EqSpec.physical_flux. idx3 a; reflexivity. }
    unfold sum3. rewrite !F by lia. rewrite PR, rot_0, !vel_rot, rot_sigma_col by assumption.
    change (delta i d) with (id3 i d). rewrite <- (proj2 OR i d Hi Hd). m3. ring.
  - rewrite rot_A by assumption. 
    assert (F : forall Q e a b, (a < 3)%nat -> (b < 3)%nat -> EqSpec.physical_flux o ph Q e (5 + 3 * a + b)%nat = mvec (EqSpec.Amat Q) (EqSpec.velocity Q) a * delta b e).
    { intros Q' e a b Ha Hb. unfold EqSpec.physical_flux. idx3 a; idx3 b; reflexivity. }
    rewrite F by assumption. rewrite Av_rot by assumption.
    change (delta j d) with (id3 j d). rewrite <- (proj2 OR j d Hj Hd).
    assert (G : meq (get_A (nf Q d)) (fun a b => M d b * mvec (EqSpec.Amat Q) (EqSpec.velocity Q) a)).
    { intros a b Ha Hb. unfold get_A, sum3. rewrite !F by assumption. idx3 b; unfold delta; cbn [Nat.eqb]; ring. }
    rewrite (conj_meq M _ _ G) by assumption.
    set (W := mvec (EqSpec.Amat Q) (EqSpec.velocity Q)). unfold mmul, mtr, mvec, sum3. ring.
  - rewrite (rot_J o M _ i T Hi). unfold mvec, get_rhoJ.
    assert (F : forall Q e a, (a < 3)%nat -> EqSpec.physical_flux o ph Q e (14 + a)%nat = Q (14 + a)%nat * EqSpec.velocity Q e + EqModel.temperature ph (Q 0%nat) (EqModel.pressure ph Q) * delta a e).
    { intros Q' e a Ha. unfold EqSpec.physical_flux. rewrite T. idx3 a; reflexivity. }
    unfold sum3. rewrite !F by lia. rewrite PR, rot_0, (rot_J o M Q i T Hi), vel_rot by assumption.
    change (delta i d) with (id3 i d). rewrite <- (proj2 OR i d Hi Hd). m3. unfold get_rhoJ. ring.
  - rewrite rot_rest by exact H. unfold EqSpec.physical_flux.
    assert (L : (14 <= k)%nat) by lia.
    replace (Nat.eqb k 0) with false by (symmetry; apply Nat.eqb_neq; lia). replace (Nat.eqb k 1) with false by (symmetry; apply Nat.eqb_neq; lia).
    replace (Nat.ltb k 5) with false by (symmetry; apply Nat.ltb_ge; lia). replace (Nat.ltb k 14) with false by (symmetry; apply Nat.ltb_ge; lia).
    replace (THERMAL o && Nat.ltb k 17)%bool with false.
    2:{ destruct (THERMAL o); [|reflexivity]. symmetry. apply Nat.ltb_ge. cbn in H. lia. }
    destruct (_ && _)%bool; [|m3; ring]. rewrite rot_rest by exact H. rewrite vel_rot by exact Hd. m3. ring.
Qed.
Lemma rotate_ext : forall A B, (forall k, A k = B k) -> forall k, rot A k = rot B k.
Proof.
  intros A B E k. destruct (index_cases (THERMAL o) k) as [->|[->|[(i & Hi & ->)|[(i & j & Hi & Hj & ->)|[(T & i & Hi & ->)|H]]]]].
  - now rewrite !rot_0. - now rewrite !rot_1.
  - rewrite !rot_v by assumption. unfold mvec, get_rhov, sum3. now rewrite !E.
  - rewrite !rot_A by assumption. apply (conj_meq M); [|exact Hi|exact Hj]. intros a b _ _. apply E.
  - rewrite !rot_J by assumption. unfold mvec, get_rhoJ, sum3. now rewrite !E.
  - now rewrite !rot_rest by assumption.
Qed.
Lemma flux_rot : forall Q d k, (d < 3)%nat -> Q 0%nat <> 0 ->
  EqModel.flux o ph (fun _ => 0) (rot Q) d k = rot (normal_flux Q d) k.
Proof.
  intros Q d k Hd Hq. rewrite flux0 by (rewrite ?rot_0; assumption). rewrite pf_rot by assumption. apply rotate_ext.
  intro c. unfold normal_flux, sum3. rewrite !flux0 by (assumption || lia). reflexivity.
Qed.
End Rot.
