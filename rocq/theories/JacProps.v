(** C52, heat conduction with a reference temperature: how far the flux Jacobian is from the derivative of the flux. *)
From Coq Require Import Reals ZArith Lra Lia.
From Coquelicot Require Import Coquelicot.
From Verif Require Import Base Options Sum Mat3 PhysModel PhysInst PhysSpec PhysProof PhysProof2 PhysProof3 PhysProof4 PhysProof5 PhysProof6 PhysProps.
From Verif Require EqModel EqSpec EqProof.
Import List ListNotations.
Open Scope R_scope.

(** the same material with reference temperature 0 *)
Definition cold (m : params) : params :=
  mkparams (kind m) (rho0 m) 0 (cv m) (pINF m) (Gam0 m) (c02 m) (ss m) (alpha m) (beta m) (gam m) (cA m) (cB m) (cR1 m) (cR2 m) (b02 m) (mu m) (tau0 m) (sigY m) (nn m) (ca2 m) (kappa m).
Definition coldP (P : par) : par := mkpar (cold (prm P)) (SOLID P) (POWER_LAW P) (PMULTI P) (BINGHAM P) (body P) (MP2 P) (REACTION P) (Qc P).

Lemma bump_at' i y r j : EqModel.bump i y r j = r j + (if Nat.eqb j i then y else 0).
Proof. unfold EqModel.bump, upd. destruct (Nat.eqb_spec j i) as [-> |]; ring. Qed.
Lemma thermal_part (mult : bool) (X Q : vec) c T e vd r d i : (d < 3)%nat ->
  let th T := EqModel.bump (14 + d) T (EqModel.bump 16 (vd * Q 16%nat) (EqModel.bump 15 (vd * Q 15%nat) (EqModel.bump 14 (vd * Q 14%nat) (EqModel.bump 1 (c * T * Q (14 + d)%nat / r) X)))) in
  (if mult then upd (th (T + e)) 17 (Q 17%nat * vd) else th (T + e)) i =
  (if mult then upd (th T) 17 (Q 17%nat * vd) else th T) i + (if Nat.eqb i 1 then c * e * (Q (14 + d)%nat / r) else if Nat.eqb i (14 + d) then e else 0).
Proof.
  intros Hd th.
  assert (Th : forall T, th T i = X i + (if Nat.eqb i 1 then c * T * Q (14 + d)%nat / r else 0) + (if Nat.eqb i 14 then vd * Q 14%nat else 0)
     + (if Nat.eqb i 15 then vd * Q 15%nat else 0) + (if Nat.eqb i 16 then vd * Q 16%nat else 0) + (if Nat.eqb i (14 + d) then T else 0)).
  { intros T'. unfold th. rewrite !bump_at'. reflexivity. }
  clearbody th. assert (C : th (T + e) i = th T i + (if Nat.eqb i 1 then c * e * (Q (14 + d)%nat / r) else if Nat.eqb i (14 + d) then e else 0)).
  { rewrite !Th. destruct (Nat.eqb_spec i 1) as [-> |].
    - change (Nat.eqb 1 (14 + d)) with false. unfold Rdiv. ring.
    - destruct (Nat.eqb i (14 + d)); ring. }
  destruct mult; [|exact C]. unfold upd. destruct (Nat.eqb_spec i 17) as [-> |]; [|exact C]. change (Nat.eqb 17 1) with false.
  destruct (Nat.eqb_spec 17 (14 + d)); [lia|]. ring.
Qed.

Section J.
Variables (o : options) (P : par) (sm : vec -> R * R * R) (sr : mat -> R) (ea : EqModel.mat -> vec -> vec) (src : vec -> vec).
Hypothesis PL : plain o P.
Hypothesis TH : THERMAL o = true.
Notation ph := (gpr o P sm sr ea src).
Notation ph0 := (gpr o (coldP P) sm sr ea src).
Notation MP := (prm P).

Lemma pressure_cold Q : pressure o P sm Q = pressure o (coldP P) sm Q.
Proof. destruct PL as (_ & HM & _). unfold pressure. cbn [PMULTI coldP]. rewrite HM. reflexivity. Qed.
Lemma dEdrho_cold Q : dEdrho o P sm Q = dEdrho o (coldP P) sm Q.
Proof. destruct PL as (_ & HM & _). unfold dEdrho. cbn [PMULTI coldP]. rewrite HM. reflexivity. Qed.
Lemma dEdp_cold Q : dEdp o P sm Q = dEdp o (coldP P) sm Q.
Proof. destruct PL as (_ & HM & _). unfold dEdp. cbn [PMULTI coldP]. rewrite HM. reflexivity. Qed.
Lemma dPdQ_cold Q i j : dPdQ o P sm Q i j = dPdQ o (coldP P) sm Q i j.
Proof. unfold dPdQ. cbv zeta. rewrite dEdrho_cold, dEdp_cold. reflexivity. Qed.
Lemma T_cold r p : temperature_mg MP r p = temperature_mg (cold MP) r p + Tref MP * phi MP r.
Proof.
  assert (E1 : forall r, phi (cold MP) r = phi MP r) by reflexivity. assert (E2 : forall r, p_ref (cold MP) r = p_ref MP r) by reflexivity.
  assert (E3 : forall r, Gamma_MG (cold MP) r = Gamma_MG MP r) by reflexivity.
  unfold temperature_mg. rewrite E1, E2, E3. cbn [Tref cv cold]. ring.
Qed.
Ltac common Hd := destruct PL as (VI & HM & HR); unfold dFdP; cbv zeta; rewrite <- pressure_cold, <- dEdrho_cold, <- dEdp_cold, VI, TH;
  change (prm (coldP P)) with (cold MP); rewrite T_cold; unfold mV; rewrite VI, TH; cbn [b2n Nat.mul Nat.add].
Lemma dFdP_cold1 Q d j : (d < 3)%nat -> dFdP o P sm Q d 1%nat j = dFdP o (coldP P) sm Q d 1%nat j
  + (if Nat.eqb j (14 + d) then ca2 MP * (Tref MP * phi MP (Q 0%nat)) else 0).
Proof.
  intros Hd. common Hd. change (dEdJ (coldP P) Q) with (dEdJ P Q). change (ca2 (cold MP)) with (ca2 MP).
  change (dTdrho (cold MP)) with (dTdrho MP). change (dTdp (cold MP)) with (dTdp MP). idx3 d.
  all: do 18 (destruct j as [|j]; [destruct (MULTI o); cbn [REACTION coldP]; try destruct (_ <? _)%Z; unfold setblock, addblock; cbn -[temperature_mg dTdrho dTdp dEdrho dEdp pressure dEdJ cold]; first [exact (eq_sym (Rplus_0_r _))|ring]|]).
  all: destruct (MULTI o); cbn [REACTION coldP]; try destruct (_ <? _)%Z; cbn [Nat.eqb]; exact (eq_sym (Rplus_0_r _)).
Qed.
Lemma dFdP_cold' Q d i j : (d < 3)%nat -> i <> 1%nat -> dFdP o P sm Q d i j = dFdP o (coldP P) sm Q d i j.
Proof.
  intros Hd Hi. common Hd. destruct i as [|[|i]]; [|congruence|]; idx3 d; destruct (MULTI o); cbn [REACTION coldP]; try destruct (_ <? _)%Z; reflexivity.
Qed.
Lemma dFdP_cold Q d i j : (d < 3)%nat -> dFdP o P sm Q d i j = dFdP o (coldP P) sm Q d i j
  + (if (Nat.eqb i 1 && Nat.eqb j (14 + d))%bool then ca2 MP * (Tref MP * phi MP (Q 0%nat)) else 0).
Proof.
  intros Hd. destruct (Nat.eqb_spec i 1) as [-> |Ne]; cbn [andb]; [apply dFdP_cold1, Hd|]. rewrite Rplus_0_r. apply dFdP_cold'; assumption.
Qed.
Lemma jacobian_cold Q d i j : (d < 3)%nat -> EqModel.jacobian ph Q d i j = EqModel.jacobian ph0 Q d i j
  + (if Nat.eqb i 1 then ca2 MP * (Tref MP * phi MP (Q 0%nat)) * dPdQ o P sm Q (14 + d)%nat j else 0).
Proof.
  intros Hd. cbn [EqModel.jacobian gpr]. unfold jacobian_product.
  rewrite (rsum_ext (V o) _ (fun k => dFdP o (coldP P) sm Q d i k * dPdQ o (coldP P) sm Q k j
    + (if (Nat.eqb i 1 && Nat.eqb k (14 + d))%bool then ca2 MP * (Tref MP * phi MP (Q 0%nat)) else 0) * dPdQ o P sm Q k j))
    by (intros k Hk; rewrite dFdP_cold, <- dPdQ_cold by exact Hd; ring).
  rewrite rsum_plus. f_equal. destruct (Nat.eqb i 1); cbn [andb].
  - rewrite (rsum_single (V o) (14 + d)%nat); [now rewrite Nat.eqb_refl| |].
    + destruct PL as (VI & _). unfold V. rewrite VI, TH. cbn [b2n]. lia.
    + intros k _ Ne. apply Nat.eqb_neq in Ne. rewrite Ne. ring.
  - apply rsum_zero. intros. ring.
Qed.
Lemma flux_cold Q d i : (d < 3)%nat -> EqModel.flux o ph (fun _ => 0) Q d i = EqModel.flux o ph0 (fun _ => 0) Q d i
  + (if Nat.eqb i 1 then ca2 MP * (Tref MP * phi MP (Q 0%nat)) * (Q (14 + d)%nat / Q 0%nat) else if Nat.eqb i (14 + d) then Tref MP * phi MP (Q 0%nat) else 0).
Proof.
  intros Hd. destruct PL as (VI & HM & HR). unfold EqModel.flux. cbv zeta. cbn [gpr EqModel.pressure EqModel.sigma EqModel.temperature EqModel.calpha2].
  rewrite <- pressure_cold, VI, TH. change (prm (coldP P)) with (cold MP). change (sigma_col (coldP P) Q) with (sigma_col P Q). change (ca2 (cold MP)) with (ca2 MP).
  rewrite (T_cold (Q 0%nat) (pressure o P sm Q)). unfold mV. rewrite VI, TH. cbn [b2n Nat.mul Nat.add].
  match goal with |- context [EqModel.bump 1 (ca2 MP * (_ + _) * _ / _) ?X] => generalize X end. intros X. unfold EqModel.temperature.
  apply (thermal_part (MULTI o) X Q (ca2 MP) _ _ (Q (2 + d)%nat / Q 0%nat) (Q 0%nat) d i Hd).
Qed.

(** The flux of a state moving with velocity q moves by the Jacobian times q, plus the term the program drops: the slope of
    the reference temperature curve. It enters the heat equation and, through the heat flux, the energy equation. *)
Theorem flux_derivative_with_heat (F : nat -> R -> R) q t0 d i : has_velocity F t0 q ->
  eos_ok MP (F 0%nat t0) -> Gamma_MG MP (F 0%nat t0) <> 0 -> b02 MP <> 0 -> cv MP <> 0 -> (d < 3)%nat -> (i < V o)%nat ->
  let Q := at_time F t0 in let e := Tref MP * (Gamma_MG MP (Q 0%nat) / Q 0%nat * phi MP (Q 0%nat)) in
  is_derive (fun t : R => EqModel.flux o ph (fun _ => 0) (at_time F t) d i) t0
    (rsum (V o) (fun j => EqModel.jacobian ph Q d i j * q j)
     + (if Nat.eqb i 1 then ca2 MP * (Q (14 + d)%nat / Q 0%nat) else if Nat.eqb i (14 + d) then 1 else 0) * (e * q 0%nat)).
Proof.
  intros HQ OK HG HB HC Hd Hi Q e. assert (OKc : eos_ok (prm (coldP P)) (F 0%nat t0)) by exact OK.
  assert (PLc : plain o (coldP P)) by (destruct PL as (A & B & C); split; [exact A|split; [exact B|exact C]]).
  destruct (jacobians_partial o (coldP P) sm sr ea src F q t0 d PLc HQ OKc HG HB ltac:(intros _; split; [reflexivity|exact HC]) Hd) as (DP & DF & _).
  specialize (DF i Hi). fold Q in DF, DP.
  assert (DPhi : is_derive (fun t => phi MP (F 0%nat t)) t0 (q 0%nat * (Gamma_MG MP (F 0%nat t0) / F 0%nat t0 * phi MP (F 0%nat t0)))).
  { apply (is_derive_comp (phi MP) (F 0%nat)); [exact (dphi_ok MP (F 0%nat t0) OK)|exact (HQ 0%nat)]. }
  assert (V14 : (14 + d < V o)%nat) by (destruct PL as (VI & _); unfold V; rewrite VI, TH; cbn [b2n]; lia).
  assert (DJ := DP (14 + d)%nat V14).
  apply (is_derive_ext (fun t => EqModel.flux o ph0 (fun _ => 0) (at_time F t) d i
     + (if Nat.eqb i 1 then ca2 MP * (Tref MP * phi MP (F 0%nat t)) * (F (14 + d)%nat t / F 0%nat t) else if Nat.eqb i (14 + d) then Tref MP * phi MP (F 0%nat t) else 0))).
  { intros t. symmetry. apply (flux_cold (at_time F t) d i Hd). }
  replace (rsum (V o) (fun j => EqModel.jacobian ph Q d i j * q j)) with (rsum (V o) (fun j => EqModel.jacobian ph0 Q d i j * q j)
     + (if Nat.eqb i 1 then ca2 MP * (Tref MP * phi MP (Q 0%nat)) * rsum (V o) (fun j => dPdQ o P sm Q (14 + d)%nat j * q j) else 0)).
  2:{ destruct (Nat.eqb i 1) eqn:E1.
      - rewrite <- rsum_scal, <- rsum_plus. apply rsum_ext. intros j _. rewrite (jacobian_cold Q d i j Hd), E1. ring.
      - rewrite Rplus_0_r. apply rsum_ext. intros j _. rewrite (jacobian_cold Q d i j Hd), E1. ring. }
  rewrite Rplus_assoc. apply (is_derive_plus (fun t => EqModel.flux o ph0 (fun _ => 0) (at_time F t) d i)); [exact DF|].
  destruct (Nat.eqb i 1) eqn:E1; [|destruct (Nat.eqb i (14 + d)) eqn:E2].
  - assert (DJ' : is_derive (fun t => F (14 + d)%nat t / F 0%nat t) t0 (rsum (V o) (fun j => dPdQ o P sm Q (14 + d)%nat j * q j))).
    { rewrite (rsum_ext (V o) _ (fun j => dPdQ o (coldP P) sm Q (14 + d)%nat j * q j)) by (intros; now rewrite dPdQ_cold).
      eapply is_derive_ext; [|exact DJ]. intros t. destruct PL as (VI & _). unfold Pvec, set1, setseg, mV. rewrite VI, TH. idx3 d; destruct (MULTI o); reflexivity. }
    set (h := fun t => F (14 + d)%nat t / F 0%nat t) in *. set (g := fun t => phi MP (F 0%nat t)) in *.
    set (dj := rsum (V o) (fun j => dPdQ o P sm Q (14 + d)%nat j * q j)) in *.
    change (Q (14 + d)%nat / Q 0%nat) with (h t0). change (phi MP (Q 0%nat)) with (g t0). unfold e. change (phi MP (Q 0%nat)) with (g t0).
    apply (is_derive_ext (fun t => ca2 MP * (Tref MP * g t) * h t)); [reflexivity|].
    change (phi MP (F 0%nat t0)) with (g t0) in DPhi. change (Q 0%nat) with (F 0%nat t0).
    set (s := Gamma_MG MP (F 0%nat t0) / F 0%nat t0) in *. assert (Dg : is_derive g t0 (q 0%nat * (s * g t0))) by exact DPhi. assert (Dh : is_derive h t0 dj) by exact DJ'. clear DPhi DJ'. clearbody g h s dj. auto_derive; [split; [eexists; exact Dg|split; [eexists; exact Dh|exact I]]|].
    dd Dg; dd Dh. ring.
  - unfold e. change (Q 0%nat) with (F 0%nat t0). rewrite Rplus_0_l, Rmult_1_l.
    replace (Tref MP * (Gamma_MG MP (F 0%nat t0) / F 0%nat t0 * phi MP (F 0%nat t0)) * q 0%nat) with (Tref MP * (q 0%nat * (Gamma_MG MP (F 0%nat t0) / F 0%nat t0 * phi MP (F 0%nat t0)))) by ring.
    exact (is_derive_scal (fun t => phi MP (F 0%nat t)) t0 (Tref MP) _ DPhi).
  - rewrite Rplus_0_l, Rmult_0_l. apply (is_derive_const (V := R_NormedModule) 0).
Qed.

(** So with any other reference temperature the matrix is not the derivative of the flux, at any state and along any
    direction in which the density changes. *)
Theorem jacobians_refuted (F : nat -> R -> R) q t0 d : has_velocity F t0 q ->
  eos_ok MP (F 0%nat t0) -> Gamma_MG MP (F 0%nat t0) <> 0 -> b02 MP <> 0 -> cv MP <> 0 -> (d < 3)%nat -> Tref MP <> 0 -> q 0%nat <> 0 ->
  ~ is_derive (fun t : R => EqModel.flux o ph (fun _ => 0) (at_time F t) d (14 + d)%nat) t0
    (rsum (V o) (fun j => EqModel.jacobian ph (at_time F t0) d (14 + d)%nat j * q j)).
Proof.
  intros HQ OK HG HB HC Hd HT Hq D. assert (V14 : (14 + d < V o)%nat) by (destruct PL as (VI & _); unfold V; rewrite VI, TH; cbn [b2n]; lia).
  assert (D' := flux_derivative_with_heat F q t0 d (14 + d)%nat HQ OK HG HB HC Hd V14). cbv zeta in D'.
  change (Nat.eqb (14 + d) 1) with false in D'. cbv iota in D'. rewrite Nat.eqb_refl in D'.
  apply is_derive_unique in D. apply is_derive_unique in D'. assert (E := eq_trans (eq_sym D) D').
  assert (Hr : 0 < F 0%nat t0) by apply OK. assert (Hp : 0 < phi MP (F 0%nat t0)) by (unfold phi; destruct (kind MP); apply exp_pos).
  assert (X : Tref MP * (Gamma_MG MP (F 0%nat t0) / F 0%nat t0 * phi MP (F 0%nat t0)) * q 0%nat = 0) by (unfold at_time in E; lra).
  apply Rmult_integral in X. destruct X as [X|X]; [|exact (Hq X)]. apply Rmult_integral in X. destruct X as [X|X]; [exact (HT X)|].
  apply Rmult_integral in X. destruct X as [X|X]; [|lra]. unfold Rdiv in X. apply Rmult_integral in X. destruct X as [X|X]; [exact (HG X)|].
  assert (0 < / F 0%nat t0) by (apply Rinv_0_lt_compat, Hr). lra.
Qed.
End J.
Print Assumptions flux_derivative_with_heat.
Print Assumptions jacobians_refuted.
(** heat conduction, reference temperature 300, every equation of state, a state with changing density *)
Example jacobians_refuted_hyps k : let o := mkopt true true false 2 true false 2 in
  plain o (demo_par k 300) /\ THERMAL o = true /\ eos_ok (prm (demo_par k 300)) 2 /\ Gamma_MG (prm (demo_par k 300)) 2 <> 0 /\
  b02 (prm (demo_par k 300)) <> 0 /\ cv (prm (demo_par k 300)) <> 0 /\ Tref (prm (demo_par k 300)) <> 0 /\
  has_velocity (fun (k : nat) (t : R) => match k with O => 2 + t | _ => INR k * t end) 0 (fun k => match k with O => 1 | _ => INR k end).
Proof.
  cbv zeta. split; [repeat split; cbn; try reflexivity; lia|]. split; [reflexivity|]. split; [exact (proj1 (demo_ok k 300))|]. split; [apply demo_ok|].
  split; [cbn; lra|]. split; [cbn; lra|]. split; [cbn; lra|]. exact (proj2 (proj2 (jacobians_hyps k))).
Qed.
