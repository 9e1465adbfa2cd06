(** Derivatives of the Mie-Gruneisen functions. *)
From Coq Require Import Reals Lra Psatz.
From Coquelicot Require Import Coquelicot.
From Verif Require Import Base Options Mat3 PhysModel PhysSpec.
Import List ListNotations.
Open Scope R_scope.

Lemma is_derive_glue : forall (f g : R -> R) x0 (l : R), is_derive f x0 l -> is_derive g x0 l -> f x0 = g x0 ->
  is_derive (fun t : R => if Rlt_dec x0 t then f t else g t) x0 l.
Proof.
  intros f g x0 l F G E. apply is_derive_Reals. apply is_derive_Reals in F. apply is_derive_Reals in G.
  intros eps He. destruct (F eps He) as (d1 & F1), (G eps He) as (d2 & G1).
  assert (Hd : 0 < Rmin d1 d2) by (apply Rmin_pos; [apply d1|apply d2]).
  exists (mkposreal _ Hd). intros h Hh Hl. cbn in Hl.
  assert (L1 := Rmin_l d1 d2). assert (L2 := Rmin_r d1 d2).
  destruct (Rlt_dec x0 x0) as [K|K]; [lra|]. destruct (Rlt_dec x0 (x0 + h)) as [K2|K2].
  - rewrite <- E. apply F1; [assumption|]. eapply Rlt_le_trans; [apply Hl|assumption].
  - apply G1; [assumption|]. eapply Rlt_le_trans; [apply Hl|assumption].
Qed.
Lemma is_derive_left : forall (f g : R -> R) x0 x (l : R), x0 < x -> is_derive f x l ->
  is_derive (fun t : R => if Rlt_dec x0 t then f t else g t) x l.
Proof.
  intros f g x0 x l H F. apply (is_derive_ext_loc f); [|assumption].
  assert (Hp : 0 < x - x0) by lra. exists (mkposreal _ Hp). intros y Hy. cbn in Hy.
  unfold ball in Hy; cbn in Hy. unfold AbsRing_ball, abs, minus, plus, opp in Hy; cbn in Hy.
  destruct (Rlt_dec x0 y) as [K|K]; [reflexivity|]. exfalso. apply Rabs_def2 in Hy. lra.
Qed.
Lemma is_derive_right : forall (f g : R -> R) x0 x (l : R), x < x0 -> is_derive g x l ->
  is_derive (fun t : R => if Rlt_dec x0 t then f t else g t) x l.
Proof.
  intros f g x0 x l H F. apply (is_derive_ext_loc g); [|assumption].
  assert (Hp : 0 < x0 - x) by lra. exists (mkposreal _ Hp). intros y Hy. cbn in Hy.
  unfold ball in Hy; cbn in Hy. unfold AbsRing_ball, abs, minus, plus, opp in Hy; cbn in Hy.
  destruct (Rlt_dec x0 y) as [K|K]; [|reflexivity]. exfalso. apply Rabs_def2 in Hy. lra.
Qed.

Lemma is_derive_pw : forall (a c r : R), 0 < r / c -> c <> 0 ->
  is_derive (fun t : R => Rpower (t / c) a) r (a / r * Rpower (r / c) a).
Proof.
  intros a c r H Hc. unfold Rpower. auto_derive; [repeat split; unfold Rdiv in H; assumption|].
  assert (r <> 0) by (intro; subst; unfold Rdiv in H; rewrite Rmult_0_l in H; lra).
  unfold Rdiv in *. field. split; assumption.
Qed.
Lemma is_derive_pwi : forall (a c r : R), 0 < c / r ->
  is_derive (fun t : R => Rpower (c / t) a) r (- a / r * Rpower (c / r) a).
Proof.
  intros a c r H. assert (r <> 0).
  { intro; subst. unfold Rdiv in H. rewrite Rinv_0, Rmult_0_r in H. lra. }
  assert (c <> 0) by (intro; subst; unfold Rdiv in H; rewrite Rmult_0_l in H; lra).
  unfold Rpower. auto_derive; [repeat split; unfold Rdiv in H; assumption|].
  unfold Rdiv in *. field. split; assumption.
Qed.

(** rewrites the derivative of [f] left by auto_derive *)
Ltac dd D := match type of D with is_derive ?f ?x ?l =>
  let E := fresh in assert (E : Derive (fun t => f t) x = l) by (apply is_derive_unique; exact D); rewrite ?E; clear E end.

Section D.
Variable MP : params.
Variable r : R.
Hypothesis OK : eos_ok MP r.
Local Ltac open_ok := destruct OK as (Hr & H0 & HK).

Lemma dGamma_ok : is_derive (Gamma_MG MP) r (dGamma_MG MP r).
Proof.
  open_ok. unfold Gamma_MG, dGamma_MG. destruct (kind MP); auto_derive; try tauto; try lra; field; lra.
Qed.

Lemma shock_ref_l : kind MP = SHOCK_MG -> rho0 MP <= r -> ss MP * (r - rho0 MP) <> r ->
  let f t := let tmp := 1 / rho0 MP - ss MP * (1 / rho0 MP - 1 / t) in c02 MP * (1 / rho0 MP - 1 / t) / (tmp * tmp) in
  is_derive f r (let tmp := ss MP * (r - rho0 MP) - r in c02 MP * rho0 MP * rho0 MP * (ss MP * (rho0 MP - r) - r) / (tmp * tmp * tmp)).
Proof.
  open_ok. intros K L S f. unfold f.
  assert (T : 1 / rho0 MP - ss MP * (1 / rho0 MP - 1 / r) = - (ss MP * (r - rho0 MP) - r) / (r * rho0 MP)) by (field; lra).
  assert (T2 : 1 / rho0 MP - ss MP * (1 / rho0 MP - 1 / r) <> 0).
  { rewrite T. unfold Rdiv. apply Rmult_integral_contrapositive_currified; [lra|apply Rinv_neq_0_compat; nra]. }
  auto_derive.
  - repeat split; try lra. unfold Rdiv in T2. apply Rmult_integral_contrapositive_currified; exact T2.
  - field. repeat split; try lra.
Qed.

Lemma dp_ref_ok : is_derive (p_ref MP) r (dp_ref MP r).
Proof.
  open_ok. unfold p_ref, dp_ref. destruct (kind MP) eqn:K.
  - auto_derive; [tauto|reflexivity].
  - destruct (Rlt_dec (rho0 MP) r) as [L|L].
    + apply is_derive_left; [assumption|]. apply (shock_ref_l K); [lra|auto].
    + destruct (Req_dec (rho0 MP) r) as [E|E].
      * assert (F := shock_ref_l K). cbv zeta in F.
        assert (Q : c02 MP * rho0 MP * rho0 MP * (ss MP * (rho0 MP - r) - r) /
          ((ss MP * (r - rho0 MP) - r) * (ss MP * (r - rho0 MP) - r) * (ss MP * (r - rho0 MP) - r)) = c02 MP).
        { rewrite E. field. lra. }
        rewrite Q in F. cbv zeta. rewrite E in *. apply is_derive_glue.
        -- apply F; lra.
        -- auto_derive; [tauto|ring].
        -- field. lra.
      * apply is_derive_right; [lra|]. auto_derive; [tauto|ring].
  - assert (0 < rho0 MP / r) by (apply Rdiv_lt_0_compat; lra).
    cbv zeta. auto_derive; [repeat split; lra|]. unfold Rdiv. field. lra.
  - assert (0 < rho0 MP / r) by (apply Rdiv_lt_0_compat; lra).
    cbv zeta. assert (D1 := is_derive_pwi (- cR1 MP) (rho0 MP) r H). assert (D2 := is_derive_pwi (- cR2 MP) (rho0 MP) r H).
    set (g1 := fun t : R => Rpower (rho0 MP / t) (- cR1 MP)) in *. set (g2 := fun t : R => Rpower (rho0 MP / t) (- cR2 MP)) in *.
    apply (is_derive_ext (fun t => cA MP * g1 t - cB MP * g2 t)); [reflexivity|].
    auto_derive; [repeat split; eexists; first [exact D1|exact D2]|].
    dd D1; dd D2. unfold g1, g2. field. lra.
  - assert (0 < r / rho0 MP) by (apply Rdiv_lt_0_compat; lra).
    assert (D := is_derive_pw (alpha MP) (rho0 MP) r H ltac:(lra)).
    set (g := fun t : R => Rpower (t / rho0 MP) (alpha MP)) in *.
    change (Rpower (r / rho0 MP) (alpha MP)) with (g r) in *.
    apply (is_derive_ext (fun t => c02 MP * t / alpha MP * (g t - 1) * g t)); [reflexivity|].
    auto_derive; [repeat split; eexists; exact D|].
    dd D. field. lra.
Qed.

Lemma de_ref_ok : is_derive (e_ref MP) r (de_ref MP r).
Proof.
  assert (P := dp_ref_ok). open_ok. unfold e_ref, de_ref. destruct (kind MP) eqn:K.
  - unfold p_ref. rewrite K. auto_derive; [lra|]. field. lra.
  - cbv zeta. unfold p_ref. rewrite K. 
    apply (is_derive_ext (fun t => if Rlt_dec (rho0 MP) t then
      / 2 * (c02 MP * (1 / rho0 MP - 1 / t) / ((1 / rho0 MP - ss MP * (1 / rho0 MP - 1 / t)) * (1 / rho0 MP - ss MP * (1 / rho0 MP - 1 / t)))) * (1 / rho0 MP - 1 / t) else 0)).
    { intro t. destruct (Rlt_dec (rho0 MP) t); reflexivity. }
    assert (F : rho0 MP <= r -> ss MP * (r - rho0 MP) <> r -> is_derive (fun t : R =>
      / 2 * (c02 MP * (1 / rho0 MP - 1 / t) / ((1 / rho0 MP - ss MP * (1 / rho0 MP - 1 / t)) * (1 / rho0 MP - ss MP * (1 / rho0 MP - 1 / t)))) * (1 / rho0 MP - 1 / t)) r
      (- (r - rho0 MP) * rho0 MP * c02 MP / ((ss MP * (r - rho0 MP) - r) * (ss MP * (r - rho0 MP) - r) * (ss MP * (r - rho0 MP) - r)))).
    { intros L S. assert (F := shock_ref_l K L S). cbv zeta in F.
      set (g := fun t : R => c02 MP * (1 / rho0 MP - 1 / t) / ((1 / rho0 MP - ss MP * (1 / rho0 MP - 1 / t)) * (1 / rho0 MP - ss MP * (1 / rho0 MP - 1 / t)))) in *.
      apply (is_derive_ext (fun t => / 2 * g t * (1 / rho0 MP - 1 / t))); [reflexivity|].
      auto_derive; [repeat split; try lra; eexists; exact F|].
      dd F. unfold g. field. repeat split; try lra. }
    destruct (Rlt_dec (rho0 MP) r) as [L|L].
    + apply is_derive_left; [assumption|]. apply F; [lra|auto].
    + destruct (Req_dec (rho0 MP) r) as [E|E].
      * assert (F2 := F ltac:(lra)). rewrite E in *. 
        assert (Q : - (r - r) * r * c02 MP / ((ss MP * (r - r) - r) * (ss MP * (r - r) - r) * (ss MP * (r - r) - r)) = 0) by (field; lra).
        rewrite Q in F2. apply is_derive_glue.
        -- apply F2. lra.
        -- auto_derive; [tauto|reflexivity].
        -- field. lra.
      * apply is_derive_right; [lra|]. auto_derive; [tauto|ring].
  - unfold p_ref. rewrite K. destruct HK. cbv zeta.
    auto_derive; [repeat split; lra|]. unfold Rdiv. field. repeat split; lra.
  - assert (Q : 0 < rho0 MP / r) by (apply Rdiv_lt_0_compat; lra). unfold p_ref. rewrite K. cbv zeta.
    assert (D1 := is_derive_pwi (1 - cR1 MP) (rho0 MP) r Q). assert (D2 := is_derive_pwi (1 - cR2 MP) (rho0 MP) r Q).
    assert (S : forall a, Rpower (rho0 MP / r) (1 - a) = rho0 MP / r * Rpower (rho0 MP / r) (- a)).
    { intro a. unfold Rminus. rewrite Rpower_plus, Rpower_1 by assumption. reflexivity. }
    rewrite (S (cR1 MP)) in D1. rewrite (S (cR2 MP)) in D2.
    set (g1 := fun t : R => Rpower (rho0 MP / t) (1 - cR1 MP)) in *. set (g2 := fun t : R => Rpower (rho0 MP / t) (1 - cR2 MP)) in *.
    apply (is_derive_ext (fun t => - cA MP / (rho0 MP * (1 - cR1 MP)) * (g1 t - 1) + cB MP / (rho0 MP * (1 - cR2 MP)) * (g2 t - 1))); [reflexivity|].
    auto_derive; [repeat split; eexists; first [exact D1|exact D2]|].
    dd D1; dd D2. destruct HK. field. repeat split; lra.
  - assert (0 < r / rho0 MP) by (apply Rdiv_lt_0_compat; lra).
    assert (D := is_derive_pw (alpha MP) (rho0 MP) r H ltac:(lra)). unfold p_ref. rewrite K. cbv zeta.
    set (g := fun t : R => Rpower (t / rho0 MP) (alpha MP)) in *.
    change (Rpower (r / rho0 MP) (alpha MP)) with (g r) in *.
    apply (is_derive_ext (fun t => c02 MP / (2 * alpha MP * alpha MP) * (g t - 1) * (g t - 1))); [reflexivity|].
    auto_derive; [repeat split; eexists; exact D|].
    dd D. field. lra.
Qed.

Hypothesis HG : Gamma_MG MP r <> 0.
Lemma dE1_rho_ok : forall p, is_derive (fun t => E_1 MP t p) r (dedrho MP r p).
Proof.
  intro p. assert (A := dp_ref_ok). assert (B := de_ref_ok). assert (C := dGamma_ok). open_ok. unfold E_1, dedrho.
  auto_derive.
  - repeat split; try (eexists; eassumption). apply Rmult_integral_contrapositive_currified; [lra|assumption].
  - dd A; dd B; dd C. field. split; first [assumption|lra].
Qed.
Lemma dE1_p_ok : forall p, is_derive (fun p => E_1 MP r p) p (dedp MP r).
Proof. intro p. open_ok. unfold E_1, dedp. auto_derive; [tauto|]. field. split; first [assumption|lra]. Qed.
Lemma dT_p_ok : forall p, cv MP <> 0 -> is_derive (fun p => temperature_mg MP r p) p (dTdp MP r).
Proof. intros p H. open_ok. unfold temperature_mg, dTdp, dedp. auto_derive; [tauto|]. field. repeat split; first [assumption|lra]. Qed.
(** The derivative of the integrating factor *)
Lemma dphi_ok : is_derive (phi MP) r (Gamma_MG MP r / r * phi MP r).
Proof.
  open_ok. unfold phi, Gamma_MG. assert (Q : 0 < r / rho0 MP) by (apply Rdiv_lt_0_compat; lra).
  destruct (kind MP); try (apply is_derive_pw; lra). auto_derive; [lra|]. unfold Rdiv, Rminus. field. lra.
Qed.
Lemma dT_rho_ok : forall p, cv MP <> 0 ->
  is_derive (fun t => temperature_mg MP t p) r (dTdrho MP r p + Tref MP * (Gamma_MG MP r / r * phi MP r)).
Proof.
  intros p H. assert (A := dp_ref_ok). assert (B := dphi_ok). assert (C := dGamma_ok). open_ok. unfold temperature_mg, dTdrho.
  auto_derive.
  - repeat split; try (eexists; eassumption). repeat apply Rmult_integral_contrapositive_currified; try assumption; lra.
  - dd A; dd B; dd C. field. repeat split; first [assumption|lra].
Qed.
Lemma dcs2_ok : is_derive (c_s2 MP) r (dc_s2drho MP r).
Proof.
  open_ok. unfold c_s2, dc_s2drho. assert (Q : 0 < r / rho0 MP) by (apply Rdiv_lt_0_compat; lra).
  assert (D := is_derive_pw (beta MP) (rho0 MP) r Q ltac:(lra)). unfold c_s2.
  set (g := fun t : R => Rpower (t / rho0 MP) (beta MP)) in *. apply (is_derive_ext (fun t => b02 MP * g t)); [reflexivity|].
  auto_derive; [eexists; exact D|]. dd D. unfold g. field. lra.
Qed.
Lemma dC0_ok : is_derive (C_0 MP) r (dC_0drho MP r).
Proof.
  assert (A := dcs2_ok). assert (C := dGamma_ok). open_ok. unfold C_0, dC_0drho.
  auto_derive; [repeat split; try (eexists; eassumption); assumption|].
  dd A; dd C. field. assumption.
Qed.
End D.
