(** C61: the Runge-Kutta integrator is fourth-order accurate for every smooth rate. *)
From Coq Require Import Reals ZArith Lra Psatz Lia.
From Coquelicot Require Import Coquelicot.
From Verif Require Import Base Options Mat3 PhysModel PhysInst PhysSpec PhysProof2 UtilsModel UtilsProof RelaxModel RelaxProof7 Relax2Props RkProof RkProof2 RkProof3.
Open Scope R_scope.

Lemma derive_n_continuous g k x : ex_derive_n g (S k) x -> continuity_pt (Derive_n g k) x.
Proof. intros H. apply derivable_continuous_pt. exists (Derive (Derive_n g k) x). apply is_derive_Reals, Derive_correct. exact H. Qed.
Lemma common_bound g a b n : a <= b -> (forall k x, (k <= n)%nat -> a <= x <= b -> continuity_pt (Derive_n g k) x) ->
  exists M, 0 <= M /\ forall k x, (k <= n)%nat -> a <= x <= b -> Rabs (Derive_n g k x) <= M.
Proof.
  intros AB. assert (ONE : forall k, (forall x, a <= x <= b -> continuity_pt (Derive_n g k) x) -> exists M, 0 <= M /\ forall x, a <= x <= b -> Rabs (Derive_n g k x) <= M).
  { intros k C. destruct (continuity_ab_maj (fun x => Rabs (Derive_n g k x)) a b AB) as [m [Hm _]].
    - intros c Hc. apply (continuity_pt_comp (Derive_n g k) Rabs); [exact (C c Hc)|apply Rcontinuity_abs].
    - exists (Rabs (Derive_n g k m)). split; [apply Rabs_pos|exact Hm]. }
  induction n as [|n IH]; intros C.
  - destruct (ONE 0%nat (fun x => C 0%nat x ltac:(lia))) as [M [M0 HM]]. exists M. split; [exact M0|]. intros k x Hk. replace k with 0%nat by lia. apply HM.
  - destruct IH as [M [M0 HM]]; [intros k x Hk; apply C; lia|]. destruct (ONE (S n) (fun x => C (S n) x ltac:(lia))) as [M' [M0' HM']].
    exists (M + M'). split; [lra|]. intros k x Hk Hx. destruct (Nat.eq_dec k (S n)) as [->|NE]; [assert (X := HM' x Hx); lra|]. assert (X := HM k x ltac:(lia) Hx). lra.
Qed.

(** Let the rate be a number [g x], five times differentiable, at every [x] of an open interval, and let [y] be a solution
    of y' = g(y) over [0,tf] that stays in that interval. Then there are a constant and a threshold such that, for every time
    [t] up to [tf] and every number [N] of steps with [t/N] under the threshold, the integrator returns a number which is
    within [C t^5 / N^4] of [y t]: fourth order in the number of steps, fifth in the length of one call. *)
Theorem runge_kutta_order : forall (f : option R -> res (option R)) (g y : R -> R) lo hi tf, 0 <= tf ->
  (forall x, lo < x < hi -> f (Some x) = Ok (Some (g x))) ->
  (forall k x, (k <= 5)%nat -> lo < x < hi -> ex_derive_n g k x) ->
  (forall t, 0 <= t <= tf -> lo < y t < hi /\ is_derive y t (g (y t))) ->
  exists C h0, 0 < h0 /\ forall fuel t N, 0 <= t <= tf -> (1 <= N)%Z -> t / IZR N <= h0 ->
    exists z, runge_kutta_launcher f fuel t (Some (y 0)) N = Ok (Some z) /\ Rabs (z - y t) <= C * t ^ 5 / IZR N ^ 4.
Proof.
  intros f g y lo hi tf HT HF HG HY.
  assert (CY : forall t, 0 <= t <= tf -> continuity_pt y t) by (intros t Ht; apply derivable_continuous_pt; exists (g (y t)); apply is_derive_Reals, HY, Ht).
  destruct (continuity_ab_maj y 0 tf HT CY) as [tx [MX TX]]. destruct (continuity_ab_min y 0 tf HT CY) as [tn [MN TN]].
  destruct (HY tx TX) as [[X1 X2] _], (HY tn TN) as [[N1 N2] _].
  set (d := Rmin (y tn - lo) (hi - y tx) / 2). assert (Hd : 0 < d) by (unfold d; assert (0 < Rmin (y tn - lo) (hi - y tx)) by (apply Rmin_glb_lt; lra); lra).
  assert (D1 : 2 * d <= y tn - lo) by (unfold d; assert (X := Rmin_l (y tn - lo) (hi - y tx)); lra). assert (D2 : 2 * d <= hi - y tx) by (unfold d; assert (X := Rmin_r (y tn - lo) (hi - y tx)); lra).
  set (a := y tn - d). set (b := y tx + d). assert (NX : y tn <= y tx) by (apply MN, TX).
  assert (IN : forall x, a <= x <= b -> lo < x < hi) by (unfold a, b; intros; lra).
  destruct (common_bound g a b 4) as [M [M0 HM]]; [unfold a, b; lra|intros k x Hk Hx; apply derive_n_continuous, HG; [lia|apply IN, Hx]|].
  set (F := Derive_n g).
  assert (HD : forall k x, (k < 4)%nat -> a <= x <= b -> is_derive (F k) x (F (S k) x)) by (intros k x Hk Hx; unfold F; apply Derive_correct, (HG (S k)); [lia|apply IN, Hx]).
  set (H := Rmin 1 (d / 2 / (M + 1))). assert (H0 : 0 < H <= 1).
  { unfold H. split; [|apply Rmin_l]. apply Rmin_glb_lt; [lra|]. apply Rdiv_lt_0_compat; lra. }
  assert (HHM : H * M <= d / 2).
  { apply Rle_trans with (d / 2 / (M + 1) * M); [apply Rmult_le_compat_r; [exact M0|apply Rmin_r]|]. apply Rle_trans with (d / 2 / (M + 1) * (M + 1)); [apply Rmult_le_compat_l; [left; apply Rdiv_lt_0_compat; lra|lra]|]. right. field. lra. }
  assert (BOX : forall t, 0 <= t <= tf -> a + d <= y t <= b - d) by (intros t Ht; unfold a, b; assert (A1 := MN t Ht); assert (A2 := MX t Ht); lra).
  assert (ODE : forall t, 0 <= t <= tf -> is_derive y t (F 0%nat (y t))) by (intros t Ht; apply HY, Ht).
  destruct (local_error F a b M HD HM y tf d H HT Hd H0 HHM BOX ODE) as [C [C0 LE]].
  set (E := exp (Lip M * tf)). assert (E0 : 0 < E) by apply exp_pos.
  set (K := tf * (C * E)). assert (K0 : 0 <= K) by (unfold K; apply Rmult_le_pos; [exact HT|apply Rmult_le_pos; lra]).
  exists (C * E), (Rmin H (d / 2 / (K + 1))). split; [apply Rmin_glb_lt; [lra|apply Rdiv_lt_0_compat; lra]|].
  intros fuel t N Ht HN Hh. assert (NP : 0 < IZR N) by (apply IZR_lt; lia).
  set (h := t / IZR N) in *. assert (h0 : 0 <= h) by (unfold h; apply Rmult_le_pos; [lra|left; apply Rinv_0_lt_compat, NP]).
  assert (hH : h <= H) by (apply Rle_trans with (1 := Hh), Rmin_l). assert (hd : h <= d / 2 / (K + 1)) by (apply Rle_trans with (1 := Hh), Rmin_r).
  assert (NN : INR (Z.to_nat N) = IZR N) by (rewrite INR_IZR_INZ, Z2Nat.id by lia; reflexivity).
  destruct (march F a b M HD HM y tf d H HT Hd H0 HHM BOX f (fun x Hx => HF x (IN x Hx)) C h C0 LE (conj h0 hH) t (proj2 Ht)) with (n := Z.to_nat N) (m := 0%nat) (u := y 0) as [z [Hz Bz]].
  - fold E. assert (h4 : h ^ 4 <= h) by (assert (X := pow_anti h 1 4 ltac:(lra) ltac:(lia)); rewrite pow_1 in X; exact X). assert (CE : 0 <= C * E) by (apply Rmult_le_pos; lra).
    replace (t * (C * h ^ 4 * E)) with (t * (C * E) * h ^ 4) by ring. assert (0 <= t * (C * E)) by (apply Rmult_le_pos; lra).
    apply Rle_trans with (K * h); [apply Rmult_le_compat; [assumption|apply pow_le; exact h0| |exact h4]; unfold K; apply Rmult_le_compat_r; lra|].
    apply Rle_trans with ((K + 1) * (d / 2 / (K + 1))); [apply Rmult_le_compat; lra|]. right. field. lra.
  - cbn [Nat.add]. rewrite NN. unfold h. field. lra.
  - cbn [INR]. rewrite !Rmult_0_l, Rminus_eq_0, Rabs_R0. lra.
  - exists z. split.
    + unfold runge_kutta_launcher, runge_kutta. fold h. rewrite Hz. cbn [bind]. apply launch_some.
    + apply Rle_trans with (1 := Bz). right. fold E. unfold h. field. lra.
Qed.
Print Assumptions runge_kutta_order.
(** y' = y^2 from 1 over half a unit of time: the solution 1/(1-t) stays between 0 and 3 *)
Example runge_kutta_order_case : let f := fun y => Ok (option_map (fun x => x ^ 2) y) : res (option R) in let y := fun t => / (1 - t) in
  (forall x, 0 < x < 3 -> f (Some x) = Ok (Some (x ^ 2))) /\ (forall k x, (k <= 5)%nat -> 0 < x < 3 -> ex_derive_n (fun x => x ^ 2) k x) /\
  (forall t, 0 <= t <= / 2 -> 0 < y t < 3 /\ is_derive y t (y t ^ 2)) /\ y 0 = 1 /\ y (/ 2) = 2.
Proof.
  cbv zeta. split; [reflexivity|]. split; [intros k x _ _; apply ex_derive_n_pow|]. split; [|split; field].
  intros t Ht. assert (P : / 2 <= 1 - t <= 1) by lra. split.
  - split; [apply Rinv_0_lt_compat; lra|]. apply Rle_lt_trans with (/ / 2); [apply Rinv_le_contravar; lra|]. rewrite Rinv_inv. lra.
  - auto_derive; [lra|]. field. lra.
Qed.

(** ** the reaction step of a cell that burns by the Arrhenius law *)
(** the state with another concentration *)
Definition with_conc (o : options) (q : vec) (l : R) : vec := set1 q (mV o) (q 0%nat * l).
Lemma temperature_affine o P sm q : PMULTI P = false -> (-1 < REACTION P)%Z -> q 0%nat <> 0 ->
  exists a b, forall l, temperature o P sm (with_conc o q l) = a + b * l.
Proof.
  intros PM RE R0. set (r := q 0%nat) in *. set (g := r * Gamma_MG (prm P) r). set (w := / (r * Gamma_MG (prm P) r * cv (prm P))).
  set (e0 := q 1%nat / r - E_3 (fun i => get_rhov q i / r) - (if VISCOUS o then E_2A P r (get_A q) else 0) - (if THERMAL o then E_2J P (fun i => get_rhoJ q i / r) else 0) + Qc P).
  exists (phi (prm P) r * Tref (prm P) + ((e0 - e_ref (prm P) r) * r * Gamma_MG (prm P) r) * w), (- Qc P * g * w). intros l.
  assert (M5 : (5 <= mV o)%nat) by (unfold mV; lia).
  assert (Q0 : with_conc o q l 0%nat = r) by (apply set1_other; lia).
  assert (IE : internal_energy o P (with_conc o q l) = e0 - Qc P * l).
  { unfold internal_energy. rewrite Q0. destruct (Z.ltb_spec (-1) (REACTION P)); [|lia]. unfold with_conc at 5. rewrite set1_same. fold r. replace (r * l / r) with l by (field; exact R0).
    assert (V1 : with_conc o q l 1%nat = q 1%nat) by (apply set1_other; lia).
    assert (V2 : E_3 (fun i => get_rhov (with_conc o q l) i / r) = E_3 (fun i => get_rhov q i / r)) by (unfold E_3, dot3, sum3, get_rhov, with_conc; rewrite !set1_other by lia; reflexivity).
    assert (V3 : (if VISCOUS o then E_2A P r (get_A (with_conc o q l)) else 0) = (if VISCOUS o then E_2A P r (get_A q) else 0)).
    { destruct (VISCOUS o) eqn:VI; [|reflexivity]. assert (14 <= mV o)%nat by (unfold mV; rewrite VI; cbn; lia). unfold E_2A, devGsq, dot3, sum3, get_A, with_conc. rewrite !set1_other by lia. reflexivity. }
    assert (V4 : (if THERMAL o then E_2J P (fun i => get_rhoJ (with_conc o q l) i / r) else 0) = (if THERMAL o then E_2J P (fun i => get_rhoJ q i / r) else 0)).
    { destruct (THERMAL o) eqn:TH; [|reflexivity]. assert (mV o = 8 \/ mV o = 17)%nat by (unfold mV; rewrite TH; destruct (VISCOUS o); cbn; lia). unfold E_2J, dot3, sum3, get_rhoJ, with_conc. rewrite !set1_other by lia. reflexivity. }
    rewrite V1, V2, V3, V4. unfold E_R, e0. ring. }
  unfold temperature, temperature_mg, pressure. rewrite PM, Q0, IE. unfold pressure_mg, g, w, Rdiv. ring.
Qed.

(** Let [lam] be the concentration that burns by the Arrhenius law at the cell's density and energy, and let it and the
    temperature stay positive over [0,tf]. Then the reaction step of the code (four Runge-Kutta steps) returns, for every
    time step under a threshold, a cell whose concentration is within [C dt^5] of [lam dt], all else unchanged. *)
Theorem arrhenius_step_order : forall o P K sm z q (lam : R -> R) tf, PMULTI P = false -> REACTION P = 1%Z -> 0 < q 0%nat -> 0 < Rc K -> 0 <= tf ->
  lam 0 = q (mV o) / q 0%nat ->
  (forall t, 0 <= t <= tf -> 0 < lam t /\ 0 < temperature o P sm (with_conc o q (lam t)) /\
     is_derive lam t (- (rB K * exp (- Ea K / (Rc K * temperature o P sm (with_conc o q (lam t)))) * lam t))) ->
  exists C h0, 0 < h0 /\ forall fuel dt, 0 <= dt <= tf -> dt <= h0 ->
    exists q', ode_stepper_numerical o P K sm z fuel q dt = Ok q' /\ Rabs (q' (mV o) / q' 0%nat - lam dt) <= C * dt ^ 5 /\ forall k, k <> mV o -> q' k = q k.
Proof.
  intros o P K sm z q lam tf PM RE R0 HRc HT L0 HL.
  destruct (temperature_affine o P sm q PM ltac:(lia) ltac:(lra)) as [a [b AF]].
  assert (CY : forall t, 0 <= t <= tf -> continuity_pt lam t) by (intros t Ht; apply derivable_continuous_pt; eexists; apply is_derive_Reals, HL, Ht).
  destruct (continuity_ab_maj lam 0 tf HT CY) as [tx [MX TX]]. destruct (continuity_ab_min lam 0 tf HT CY) as [tn [MN TN]].
  destruct (HL tx TX) as [PX [TPX _]], (HL tn TN) as [PN [TPN _]]. rewrite AF in TPX, TPN.
  set (tau := Rmin (a + b * lam tx) (a + b * lam tn)). assert (T0 : 0 < tau) by (apply Rmin_glb_lt; assumption).
  set (eps := Rmin (lam tn / 2) (tau / 2 / (Rabs b + 1))). assert (AB := Rabs_pos b).
  assert (E0 : 0 < eps) by (apply Rmin_glb_lt; [lra|]; apply Rdiv_lt_0_compat; lra). assert (E1 : eps <= lam tn / 2) by apply Rmin_l.
  assert (E2 : Rabs b * eps <= tau / 2).
  { apply Rle_trans with ((Rabs b + 1) * (tau / 2 / (Rabs b + 1))); [apply Rmult_le_compat; [exact AB|lra|lra|apply Rmin_r]|]. right. field. lra. }
  assert (NX : lam tn <= lam tx) by (apply MN, TX).
  assert (BE : - (tau / 2) <= b * eps <= tau / 2) by (apply Rabs_le_between; rewrite Rabs_mult, (Rabs_pos_eq eps) by lra; exact E2).
  set (lo := lam tn - eps). set (hi := lam tx + eps).
  assert (TLO : 0 < a + b * lo) by (unfold lo; assert (X := Rmin_r (a + b * lam tx) (a + b * lam tn)); fold tau in X; lra).
  assert (THI : 0 < a + b * hi) by (unfold hi; assert (X := Rmin_l (a + b * lam tx) (a + b * lam tn)); fold tau in X; lra).
  assert (LP : 0 < lo) by (unfold lo; lra). assert (LH : lo < hi) by (unfold lo, hi; lra).
  assert (POS : forall x, lo < x < hi -> 0 < a + b * x). { intros x Hx. destruct (Rle_dec 0 b); nra. }
  set (g := fun l => - (rB K * exp (- Ea K / (Rc K * (a + b * l))) * l)).
  destruct (runge_kutta_order (func o P K sm z q) g lam lo hi tf HT) as [C [h0 [H0 ORD]]].
  - intros x Hx. unfold func, reaction_rate. rewrite RE. fold (with_conc o q x). rewrite AF. cbn [bind option_map]. do 2 f_equal. unfold g.
    assert (X : cmax 0 (with_conc o q x (mV o) / with_conc o q x 0%nat) = x).
    { unfold with_conc. rewrite set1_same, set1_other by (unfold mV; lia). replace (q 0%nat * x / q 0%nat) with x by (field; lra). unfold cmax. destruct (Rlt_dec 0 x); lra. }
    rewrite X. reflexivity.
  - intros k x Hk Hx. apply (smooth_derive_n lo hi 5); [|exact Hk|exact Hx].
    apply (smooth_ext lo hi 5 (fun l => -1 * ((rB K * exp (- Ea K * / (Rc K * (a + b * l)))) * l))); [intros; unfold g, Rdiv; ring|].
    apply (smooth_mul lo hi 5 (fun _ => -1)); [apply smooth_const|]. apply smooth_mul; [|apply smooth_id]. apply (smooth_mul lo hi 5 (fun _ => rB K)); [apply smooth_const|]. apply smooth_exp.
    apply (smooth_mul lo hi 5 (fun _ => - Ea K)); [apply smooth_const|]. apply smooth_inv.
    + intros w Hw. assert (X := POS w Hw). apply Rgt_not_eq. apply Rmult_lt_0_compat; assumption.
    + apply (smooth_mul lo hi 5 (fun _ => Rc K)); [apply smooth_const|]. apply (smooth_add lo hi 5 (fun _ => a)); [apply smooth_const|]. apply (smooth_mul lo hi 5 (fun _ => b)); [apply smooth_const|apply smooth_id].
  - intros t Ht. destruct (HL t Ht) as [P1 [P2 P3]]. rewrite AF in P3. split; [unfold lo, hi; assert (A1 := MN t Ht); assert (A2 := MX t Ht); lra|exact P3].
  - exists (Rabs C), h0. split; [exact H0|]. intros fuel dt Hdt Hh. destruct (ORD fuel dt RK_STEPS Hdt) as [w [EW BW]]; [unfold RK_STEPS; lia|unfold RK_STEPS; lra|].
    assert (LQ : 0 < q (mV o) / q 0%nat) by (rewrite <- L0; apply (HL 0); lra).
    unfold ode_stepper_numerical. destruct (Z.ltb_spec (-1) (REACTION P)); [|lia]. destruct (Rlt_dec 0 (q (mV o) / q 0%nat)); [|contradiction].
    rewrite <- L0, EW. cbn [bind]. eexists. split; [reflexivity|]. rewrite set1_same, set1_other by (unfold mV; lia).
    split; [|intros k Hk; apply set1_other; exact Hk].
    replace (q 0%nat * cmax 0 w / q 0%nat) with (cmax 0 w) by (field; lra).
    assert (LD : 0 < lam dt) by (apply HL, Hdt). assert (D5 : 0 <= dt ^ 5) by (apply pow_le; lra).
    assert (B2 : C * dt ^ 5 / IZR RK_STEPS ^ 4 <= Rabs C * dt ^ 5).
    { unfold RK_STEPS. assert (X := Rle_abs C). assert (X' := Rabs_pos C). assert (C * dt ^ 5 <= Rabs C * dt ^ 5) by (apply Rmult_le_compat_r; assumption). assert (0 <= Rabs C * dt ^ 5) by (apply Rmult_le_pos; assumption). lra. }
    apply Rle_trans with (2 := B2). apply Rle_trans with (2 := BW). unfold cmax. destruct (Rlt_dec 0 w); [lra|]. rewrite !Rabs_left1; lra.
Qed.
Print Assumptions arrhenius_step_order.
Definition hot_rates : rates := mkrates 1 0 1 1 1 1 0 0 0 1 1 1 1 1 (/ 2) 1 1 1 0 1.
Lemma hot_temperature sm l : temperature burn_opts (burn_params 1) sm (with_conc burn_opts burn_state l) = 20.
Proof.
  assert (G : devGsq (get_A (with_conc burn_opts burn_state l)) = 0) by (unfold devGsq, get_A, dot3, sum3, with_conc, set1; cbn; field).
  unfold temperature, temperature_mg, pressure. cbn [PMULTI burn_params]. unfold pressure_mg, internal_energy, E_2A. rewrite G.
  unfold E_3, dot3, sum3, get_rhov, with_conc, p_ref, e_ref, Gamma_MG. cbn. generalize (Rpower (/ 2 / 1) (7 / 5 - 1)). match goal with |- context [C_0 ?a ?b] => generalize (C_0 a b) end. intros c0 r0. unfold E_R. cbn [burn_params Qc]. field.
Qed.
(** a state at temperature 20 whose fuel burns away exponentially *)
Example arrhenius_case : forall sm, exists lam, lam 0 = burn_state (mV burn_opts) / burn_state 0%nat /\ 0 < Rc hot_rates /\ 0 < Ea hot_rates /\
  forall t, 0 <= t <= 1 -> 0 < lam t /\ 0 < temperature burn_opts (burn_params 1) sm (with_conc burn_opts burn_state (lam t)) /\
     is_derive lam t (- (rB hot_rates * exp (- Ea hot_rates / (Rc hot_rates * temperature burn_opts (burn_params 1) sm (with_conc burn_opts burn_state (lam t)))) * lam t)).
Proof.
  intros sm. set (k := exp (Ropp 1 / (1 * 20))). exists (fun t => / 2 * exp (- k * t)). split; [cbn; rewrite Rmult_0_r, exp_0; field|]. split; [cbn; lra|]. split; [cbn; lra|].
  intros t _. rewrite hot_temperature. change (Ea hot_rates) with 1. change (Rc hot_rates) with 1. change (rB hot_rates) with 1. fold k. clearbody k. split; [apply Rmult_lt_0_compat; [lra|apply exp_pos]|]. split; [lra|].
  auto_derive; [exact I|]. ring.
Qed.
