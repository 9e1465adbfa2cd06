(** The order of the Runge-Kutta scheme: local error, stability and convergence. *)
From Coq Require Import Reals ZArith Lra Psatz Lia.
From Coquelicot Require Import Coquelicot.
From Verif Require Import Base PhysInst RelaxModel RkProof.
Open Scope R_scope.

Section Along.
Variable F : nat -> R -> R.
Variables a b M : R.
Hypothesis HF : forall k x, (k < 4)%nat -> a <= x <= b -> is_derive (F k) x (F (S k) x).
Hypothesis HM : forall k x, (k <= 4)%nat -> a <= x <= b -> Rabs (F k x) <= M.
Variables (y : R -> R) (T d H : R).
Hypothesis HT : 0 <= T.
Hypothesis Hd : 0 < d.
Hypothesis HH : 0 < H <= 1.
Hypothesis HHM : H * M <= d / 2.
Hypothesis Hbox : forall t, 0 <= t <= T -> a + d <= y t <= b - d.
Hypothesis Hode : forall t, 0 <= t <= T -> is_derive y t (F 0%nat (y t)).

Definition Dom (t s : R) : Prop := 0 <= t /\ 0 <= s <= H /\ t + s <= T.
Lemma Dom_unit t s : Dom t s -> 0 <= s <= 1. Proof using HH. unfold Dom. lra. Qed.
Local Notation ord := (ord Dom).
Local Notation jet := (jet Dom).
Local Notation bounded := (bounded Dom).
Lemma M_pos : 0 <= M.
Proof using HM HT Hbox Hd. assert (B := Hbox 0 ltac:(lra)). apply Rle_trans with (2 := HM 0%nat (y 0) ltac:(lia) ltac:(lra)), Rabs_pos. Qed.
Lemma in_box t : 0 <= t <= T -> a <= y t <= b. Proof using Hbox Hd. intros D. assert (B := Hbox t D). lra. Qed.
Lemma b_f k : (k <= 4)%nat -> bounded (fun t => F k (y t)).
Proof using HM HT Hbox Hd. intros Hk. exists M. split; [exact M_pos|]. intros t s D. cbn [pow]. rewrite Rmult_1_r. apply HM; [exact Hk|]. apply in_box. unfold Dom in D. lra. Qed.

(** the rate at a perturbed point *)
Lemma jet_comp n (e : R -> R -> R) d1 d2 d3 : (n <= 4)%nat -> ord 1 e -> (forall t s, Dom t s -> a <= y t + e t s <= b) ->
  jet n e (fun _ => 0) d1 d2 d3 ->
  jet n (fun t s => F 0%nat (y t + e t s)) (fun t => F 0%nat (y t)) (fun t => F 1%nat (y t) * d1 t)
    (fun t => F 1%nat (y t) * d2 t + F 2%nat (y t) / 2 * d1 t ^ 2)
    (fun t => F 1%nat (y t) * d3 t + F 2%nat (y t) * d1 t * d2 t + F 3%nat (y t) / 6 * d1 t ^ 3).
Proof using HF HM HT Hbox Hd HH.
  intros L O1 IN J. assert (U := Dom_unit).
  assert (R : jet n (fun t s => F 0%nat (y t + e t s) - (F 0%nat (y t) + F 1%nat (y t) * e t s + F 2%nat (y t) / 2 * e t s ^ 2 + F 3%nat (y t) / 6 * e t s ^ 3)) (fun _ => 0) (fun _ => 0) (fun _ => 0) (fun _ => 0)).
  { constructor; try apply b_num. destruct O1 as [C [C0 O1]]. apply (ord_le Dom U n 4 _ L). exists (M * C ^ 4). split; [apply Rmult_le_pos; [exact M_pos|apply pow_le; exact C0]|].
    intros t s D. unfold poly. match goal with |- Rabs (?x - ?z) <= _ => replace z with 0 by ring end. rewrite Rminus_0_r.
    apply Rle_trans with (1 := taylor F a b M HF HM (y t) (e t s) (in_box t ltac:(unfold Dom in D; lra)) (IN t s D)).
    rewrite Rmult_assoc, <- Rpow_mult_distr. apply Rmult_le_compat_l; [exact M_pos|]. apply pow_incr. split; [apply Rabs_pos|]. assert (X := O1 t s D). cbn [pow] in X. lra. }
  assert (J2 := jet_mul Dom U n _ _ _ _ _ _ _ _ _ _ L J J). assert (J3 := jet_mul Dom U n _ _ _ _ _ _ _ _ _ _ L J J2).
  assert (B0 := b_f 0 ltac:(lia)). assert (B1 := b_f 1 ltac:(lia)). assert (B2 := b_f 2 ltac:(lia)). assert (B3 := b_f 3 ltac:(lia)).
  assert (B2' := b_mul Dom _ _ (b_num Dom (/ 2)) B2). assert (B3' := b_mul Dom _ _ (b_num Dom (/ 6)) B3).
  assert (S1 := jet_scale Dom n _ _ _ _ _ _ B1 J). assert (S2 := jet_scale Dom n _ _ _ _ _ _ B2' J2). assert (S3 := jet_scale Dom n _ _ _ _ _ _ B3' J3).
  assert (S0 := jet_coef Dom n _ B0).
  refine (jet_ext Dom n _ _ _ _ _ _ _ _ _ _ (jet_add Dom n _ _ _ _ _ _ _ _ _ _ R (jet_add Dom n _ _ _ _ _ _ _ _ _ _ S0 (jet_add Dom n _ _ _ _ _ _ _ _ _ _ S1 (jet_add Dom n _ _ _ _ _ _ _ _ _ _ S2 S3)))) _ _ _ _ _); cbv beta; intros; field.
Qed.

(** integrating an expansion *)
Lemma integrate n (e G : R -> R -> R) c0 c1 c2 c3 : jet n G c0 c1 c2 c3 -> (forall t, e t 0 = 0) ->
  (forall t s, Dom t s -> is_derive (e t) s (G t s)) ->
  ord (S n) (fun t s => e t s - s * (c0 t + c1 t / 2 * s + c2 t / 3 * s ^ 2 + c3 t / 4 * s ^ 3)).
Proof using HH.
  intros [A B C D [K [K0 E]]] E0 HD. exists K. split; [exact K0|]. intros t s Ds.
  assert (POS : 0 <= s <= H) by (unfold Dom in Ds; lra).
  rewrite <- (Rabs_pos_eq s) at 6 by lra.
  apply (grows (fun s => e t s - s * (c0 t + c1 t / 2 * s + c2 t / 3 * s ^ 2 + c3 t / 4 * s ^ 3)) (fun s => G t s - poly c0 c1 c2 c3 t s)); [rewrite E0; ring| | |exact K0].
  - intros r Hr. rewrite Rmin_left, Rmax_right in Hr by lra. apply @is_derive_minus; [apply HD; unfold Dom in *; lra|]. unfold poly. auto_derive; [exact I|field].
  - intros r Hr. rewrite Rmin_left, Rmax_right in Hr by lra. rewrite (Rabs_pos_eq r) by lra. apply E. unfold Dom in *; lra.
Qed.
Lemma integrate_jet n (e G : R -> R -> R) c0 c1 c2 c3 : (n <= 3)%nat -> jet n G c0 c1 c2 c3 -> (forall t, e t 0 = 0) ->
  (forall t s, Dom t s -> is_derive (e t) s (G t s)) ->
  jet (S n) e (fun _ => 0) c0 (fun t => c1 t / 2) (fun t => c2 t / 3).
Proof using HH.
  intros L J E0 HD. assert (X := integrate n e G c0 c1 c2 c3 J E0 HD). destruct J as [A B C D E].
  constructor; [apply b_num|exact A|exact (b_mul Dom _ _ B (b_num Dom (/ 2)))|exact (b_mul Dom _ _ C (b_num Dom (/ 3)))|].
  assert (Y := ord_term Dom Dom_unit (fun t => c3 t * / 4) (S n) 4 ltac:(lia) (b_mul Dom _ _ D (b_num Dom (/ 4)))).
  refine (ord_ext _ _ _ _ (ord_add _ _ _ _ X Y) _). intros t s _. unfold poly. field.
Qed.

(** the exact solution *)
Definition moved (t s : R) : R := y (t + s) - y t.
Lemma moved_0 t : moved t 0 = 0. Proof using. unfold moved. rewrite Rplus_0_r. ring. Qed.
Lemma moved_derive t s : Dom t s -> is_derive (moved t) s (F 0%nat (y t + moved t s)).
Proof using Hode.
  intros D. unfold moved. replace (y t + (y (t + s) - y t)) with (y (t + s)) by ring. rewrite <- (Rminus_0_r (F 0%nat _)). apply @is_derive_minus; [|apply @is_derive_const].
  replace (F 0%nat (y (t + s))) with (1 * F 0%nat (y (t + s))) by ring. apply (is_derive_comp y (fun s => t + s)); [apply Hode; unfold Dom in D; lra|]. auto_derive; [exact I|ring].
Qed.
Lemma moved_in t s : Dom t s -> a <= y t + moved t s <= b.
Proof using Hbox Hd. intros D. unfold moved. replace (y t + (y (t + s) - y t)) with (y (t + s)) by ring. apply in_box. unfold Dom in D. lra. Qed.
Lemma rate_bounded (e : R -> R -> R) : (forall t s, Dom t s -> a <= y t + e t s <= b) -> ord 0 (fun t s => F 0%nat (y t + e t s)).
Proof using HM HT Hbox Hd. intros IN. exists M. split; [exact M_pos|]. intros t s D. cbn [pow]. rewrite Rmult_1_r. apply HM; [lia|exact (IN t s D)]. Qed.

Lemma moved_jet : ord 5 (fun t s => moved t s - s * (F 0%nat (y t) + F 1%nat (y t) * F 0%nat (y t) / 2 * s
    + (F 1%nat (y t) * (F 1%nat (y t) * F 0%nat (y t) / 2) + F 2%nat (y t) / 2 * F 0%nat (y t) ^ 2) / 3 * s ^ 2
    + (F 1%nat (y t) * ((F 1%nat (y t) * (F 1%nat (y t) * F 0%nat (y t) / 2) + F 2%nat (y t) / 2 * F 0%nat (y t) ^ 2) / 3)
       + F 2%nat (y t) * F 0%nat (y t) * (F 1%nat (y t) * F 0%nat (y t) / 2) + F 3%nat (y t) / 6 * F 0%nat (y t) ^ 3) / 4 * s ^ 3)).
Proof using HF HM HT Hbox Hd HH Hode.
  assert (J0 : jet 0 (fun t s => F 0%nat (y t + moved t s)) (fun _ => 0) (fun _ => 0) (fun _ => 0) (fun _ => 0)).
  { constructor; try apply b_num. refine (ord_ext _ _ _ _ (rate_bounded moved moved_in) _). intros t s _. unfold poly. ring. }
  assert (E1 := integrate_jet 0 moved _ _ _ _ _ ltac:(lia) J0 moved_0 moved_derive).
  assert (O1 : ord 1 moved).
  { destruct E1 as [_ _ _ _ E1]. refine (ord_ext _ _ _ _ E1 _). intros t s _. unfold poly. field. }
  assert (G1 := jet_comp 1 moved _ _ _ ltac:(lia) O1 moved_in E1). assert (E2 := integrate_jet 1 moved _ _ _ _ _ ltac:(lia) G1 moved_0 moved_derive).
  assert (G2 := jet_comp 2 moved _ _ _ ltac:(lia) O1 moved_in E2). assert (E3 := integrate_jet 2 moved _ _ _ _ _ ltac:(lia) G2 moved_0 moved_derive).
  assert (G3 := jet_comp 3 moved _ _ _ ltac:(lia) O1 moved_in E3). assert (E4 := integrate_jet 3 moved _ _ _ _ _ ltac:(lia) G3 moved_0 moved_derive).
  assert (G4 := jet_comp 4 moved _ _ _ ltac:(lia) O1 moved_in E4). assert (E5 := integrate 4 moved _ _ _ _ _ G4 moved_0 moved_derive).
  refine (ord_ext _ _ _ _ E5 _). intros t s _. cbv beta. field.
Qed.

(** the scheme *)
Definition K1 (u s : R) : R := F 0%nat u.
Definition K2 (u s : R) : R := F 0%nat (u + / 2 * (s * K1 u s)).
Definition K3 (u s : R) : R := F 0%nat (u + / 2 * (s * K2 u s)).
Definition K4 (u s : R) : R := F 0%nat (u + s * K3 u s).
Definition incr (u s : R) : R := / 6 * (s * K1 u s + 2 * (s * K2 u s) + 2 * (s * K3 u s) + s * K4 u s).

Lemma near u c s k : a + d / 2 <= u <= b - d / 2 -> 0 <= s <= H -> 0 <= c <= 1 -> Rabs k <= M -> a <= u + c * (s * k) <= b.
Proof using HHM HH.
  intros U S' C K. assert (X : Rabs (c * (s * k)) <= d / 2).
  { rewrite !Rabs_mult, (Rabs_pos_eq c), (Rabs_pos_eq s) by lra. assert (0 <= Rabs k) by apply Rabs_pos. apply Rle_trans with (2 := HHM). apply Rle_trans with (1 * (H * M)); [|lra]. apply Rmult_le_compat; [lra|apply Rmult_le_pos; lra|lra|]. apply Rmult_le_compat; lra. }
  apply Rabs_le_between in X. lra.
Qed.
Lemma near1 u s k : a + d / 2 <= u <= b - d / 2 -> 0 <= s <= H -> Rabs k <= M -> a <= u + s * k <= b.
Proof using HHM HH. intros U S' K. assert (X := near u 1 s k U S' ltac:(lra) K). rewrite Rmult_1_l in X. exact X. Qed.
Lemma stages u s : a + d / 2 <= u <= b - d / 2 -> 0 <= s <= H ->
  a <= u <= b /\ a <= u + / 2 * (s * K1 u s) <= b /\ a <= u + / 2 * (s * K2 u s) <= b /\ a <= u + s * K3 u s <= b.
Proof using HHM HH HM Hd.
  intros U S'. assert (U0 : a <= u <= b) by lra. assert (B1 := HM 0%nat u ltac:(lia) U0). assert (U1 := near u (/ 2) s _ U S' ltac:(lra) B1).
  assert (B2 := HM 0%nat _ ltac:(lia) U1). assert (U2 := near u (/ 2) s _ U S' ltac:(lra) B2).
  assert (B3 := HM 0%nat _ ltac:(lia) U2). assert (U3 := near1 u s _ U S' B3). unfold K3, K2, K1. auto.
Qed.
Lemma on_track t s : Dom t s -> a + d / 2 <= y t <= b - d / 2 /\ 0 <= s <= H.
Proof using Hbox Hd. intros D. unfold Dom in D. assert (B := Hbox t ltac:(lra)). lra. Qed.

Lemma shift_ord1 c (G : R -> R -> R) : ord 0 G -> ord 1 (fun t s => c * (s * G t s)).
Proof using HH. intros O. apply ord_scale. refine (ord_ext _ _ _ _ (ord_mul _ 1 0 _ _ (ord_pow Dom Dom_unit 1) O) _). intros; cbn; ring. Qed.

Lemma local_error : ord 5 (fun t s => incr (y t) s - moved t s).
Proof using HF HM HT Hbox Hd HH HHM Hode.
  assert (U := Dom_unit).
  assert (B0 := b_f 0 ltac:(lia)). assert (B1 := b_f 1 ltac:(lia)). assert (B2 := b_f 2 ltac:(lia)). assert (B3 := b_f 3 ltac:(lia)).
  assert (ST : forall t s, Dom t s -> a <= y t <= b /\ a <= y t + / 2 * (s * K1 (y t) s) <= b /\ a <= y t + / 2 * (s * K2 (y t) s) <= b /\ a <= y t + s * K3 (y t) s <= b).
  { intros t s D. destruct (on_track t s D) as [A B]. exact (stages _ _ A B). }
  assert (J1 := jet_coef Dom 4 _ B0).
  assert (D1 := jet_scale Dom 4 _ _ _ _ _ _ (b_num Dom (/ 2)) (jet_shift Dom U 4 _ _ _ _ _ ltac:(lia) J1)).
  assert (O1 := shift_ord1 (/ 2) _ (jet_ord0 Dom U 4 _ _ _ _ _ J1)).
  assert (D1' : jet 4 (fun t s => / 2 * (s * F 0%nat (y t))) (fun _ => 0) (fun t => / 2 * F 0%nat (y t)) (fun t => / 2 * 0) (fun t => / 2 * 0)) by (refine (jet_ext Dom 4 _ _ _ _ _ _ _ _ _ _ D1 _ _ _ _ _); intros; cbv beta; ring).
  assert (J2 := jet_comp 4 _ _ _ _ ltac:(lia) O1 (fun t s D => proj1 (proj2 (ST t s D))) D1').
  assert (D2 := jet_scale Dom 4 _ _ _ _ _ _ (b_num Dom (/ 2)) (jet_shift Dom U 4 _ _ _ _ _ ltac:(lia) J2)).
  assert (O2 := shift_ord1 (/ 2) _ (jet_ord0 Dom U 4 _ _ _ _ _ J2)).
  match type of D2 with RkProof.jet _ _ ?g _ ?c1 ?c2 ?c3 => assert (D2' : jet 4 g (fun _ => 0) c1 c2 c3) by (refine (jet_ext Dom 4 _ _ _ _ _ _ _ _ _ _ D2 _ _ _ _ _); intros; cbv beta; ring) end.
  assert (J3 := jet_comp 4 _ _ _ _ ltac:(lia) O2 (fun t s D => proj1 (proj2 (proj2 (ST t s D)))) D2').
  assert (D3 := jet_shift Dom U 4 _ _ _ _ _ ltac:(lia) J3).
  assert (O3 := shift_ord1 1 _ (jet_ord0 Dom U 4 _ _ _ _ _ J3)).
  match type of D3 with RkProof.jet _ _ ?g _ _ _ _ => assert (O3' : ord 1 g) by (refine (ord_ext _ _ _ _ O3 _); intros; cbv beta; ring) end.
  assert (J4 := jet_comp 4 _ _ _ _ ltac:(lia) O3' (fun t s D => proj2 (proj2 (proj2 (ST t s D)))) D3).
  assert (SUM := jet_scale Dom 4 _ _ _ _ _ _ (b_num Dom (/ 6)) (jet_add Dom 4 _ _ _ _ _ _ _ _ _ _ J1 (jet_add Dom 4 _ _ _ _ _ _ _ _ _ _ (jet_scale Dom 4 _ _ _ _ _ _ (b_num Dom 2) J2) (jet_add Dom 4 _ _ _ _ _ _ _ _ _ _ (jet_scale Dom 4 _ _ _ _ _ _ (b_num Dom 2) J3) J4)))).
  destruct SUM as [_ _ _ _ SUM]. assert (X := ord_mul Dom 1 4 _ _ (ord_pow Dom U 1) SUM). cbn [Nat.add] in X.
  refine (ord_ext _ _ _ _ (ord_sub Dom 5 _ _ X moved_jet) _). intros t s _. cbv beta. unfold poly, incr, K4, K3, K2, K1.
  set (k2 := F 0%nat (y t + / 2 * (s * F 0%nat (y t)))). set (k3 := F 0%nat (y t + / 2 * (s * k2))). set (k4 := F 0%nat (y t + s * k3)). field.
Qed.

(** stability *)
Definition Lip : R := M * (1 + M * (1 + M * (1 + M))).
Lemma stage_diff c u v p q s L : a <= u + c * (s * p) <= b -> a <= v + c * (s * q) <= b -> 0 <= c <= 1 -> 0 <= s <= 1 -> 0 <= M ->
  Rabs (p - q) <= L * Rabs (u - v) -> Rabs (F 0%nat (u + c * (s * p)) - F 0%nat (v + c * (s * q))) <= M * (1 + L) * Rabs (u - v).
Proof using HF HM.
  intros P Q C S' M0 D. apply Rle_trans with (1 := lipschitz F a b M HF HM _ _ P Q). rewrite Rmult_assoc. apply Rmult_le_compat_l; [exact M0|].
  replace (u + c * (s * p) - (v + c * (s * q))) with ((u - v) + c * (s * (p - q))) by ring. apply Rle_trans with (1 := Rabs_triang _ _). rewrite !Rabs_mult, (Rabs_pos_eq c), (Rabs_pos_eq s) by lra.
  assert (0 <= Rabs (p - q)) by apply Rabs_pos. assert (c * (s * Rabs (p - q)) <= 1 * (1 * Rabs (p - q))) by (apply Rmult_le_compat; [lra|apply Rmult_le_pos; lra|lra|apply Rmult_le_compat; lra]). lra.
Qed.
Lemma stable u v s : a + d / 2 <= u <= b - d / 2 -> a + d / 2 <= v <= b - d / 2 -> 0 <= s <= H ->
  Rabs (incr u s - incr v s) <= s * Lip * Rabs (u - v).
Proof using HF HM HHM HH Hd HT Hbox.
  intros U W S'. assert (M0 := M_pos). destruct (stages u s U S') as [U0 [U1 [U2 U3]]], (stages v s W S') as [W0 [W1 [W2 W3]]].
  assert (A : 0 <= Rabs (u - v)) by apply Rabs_pos.
  assert (E1 : Rabs (K1 u s - K1 v s) <= M * Rabs (u - v)) by (apply (lipschitz F a b M HF HM); assumption).
  assert (E2 : Rabs (K2 u s - K2 v s) <= M * (1 + M) * Rabs (u - v)) by (apply stage_diff; try assumption; lra).
  assert (E3 : Rabs (K3 u s - K3 v s) <= M * (1 + M * (1 + M)) * Rabs (u - v)) by (apply stage_diff; try assumption; lra).
  assert (E4 : Rabs (K4 u s - K4 v s) <= Lip * Rabs (u - v)).
  { unfold K4. assert (X := stage_diff 1 u v (K3 u s) (K3 v s) s (M * (1 + M * (1 + M)))). rewrite !Rmult_1_l in X. apply X; try assumption; lra. }
  assert (P1 : 0 <= M * M) by (apply Rmult_le_pos; lra). assert (P2 : 0 <= M * (M * M)) by (apply Rmult_le_pos; lra). assert (P3 : 0 <= M * (M * (M * M))) by (apply Rmult_le_pos; lra).
  assert (L1 : M * Rabs (u - v) <= Lip * Rabs (u - v)) by (apply Rmult_le_compat_r; [exact A|]; unfold Lip; lra).
  assert (L2 : M * (1 + M) * Rabs (u - v) <= Lip * Rabs (u - v)) by (apply Rmult_le_compat_r; [exact A|]; unfold Lip; lra).
  assert (L3 : M * (1 + M * (1 + M)) * Rabs (u - v) <= Lip * Rabs (u - v)) by (apply Rmult_le_compat_r; [exact A|]; unfold Lip; lra).
  unfold incr. replace (/ 6 * (s * K1 u s + 2 * (s * K2 u s) + 2 * (s * K3 u s) + s * K4 u s) - / 6 * (s * K1 v s + 2 * (s * K2 v s) + 2 * (s * K3 v s) + s * K4 v s))
    with (s * (/ 6 * ((K1 u s - K1 v s) + 2 * (K2 u s - K2 v s) + 2 * (K3 u s - K3 v s) + (K4 u s - K4 v s)))) by ring.
  rewrite Rabs_mult, (Rabs_pos_eq s), Rmult_assoc by lra. apply Rmult_le_compat_l; [lra|].
  apply Rabs_le_between in E1. apply Rabs_le_between in E2. apply Rabs_le_between in E3. apply Rabs_le_between in E4. apply Rabs_le_between. lra.
Qed.

(** the program *)
Variable f : option R -> res (option R).
Hypothesis Hf : forall x, a <= x <= b -> f (Some x) = Ok (Some (F 0%nat x)).
Lemma rk4_incr u s : a + d / 2 <= u <= b - d / 2 -> 0 <= s <= H -> rk4 f (Some u) s = Ok (Some (incr u s)).
Proof using Hf HM HHM HH Hd.
  intros U S'. destruct (stages u s U S') as [U0 [U1 [U2 U3]]]. unfold rk4, oadd, oscale. rewrite (Hf _ U0). cbn [bind option_map omap2].
  change (u + / 2 * (s * F 0%nat u)) with (u + / 2 * (s * K1 u s)). rewrite (Hf _ U1). cbn [bind option_map omap2].
  change (F 0%nat (u + / 2 * (s * K1 u s))) with (K2 u s). rewrite (Hf _ U2). cbn [bind option_map omap2].
  change (F 0%nat (u + / 2 * (s * K2 u s))) with (K3 u s). rewrite (Hf _ U3). cbn [bind option_map omap2]. reflexivity.
Qed.

Lemma march C h (C0 : 0 <= C) (LE : forall t s, Dom t s -> Rabs (incr (y t) s - moved t s) <= C * s ^ 5) (Hh : 0 <= h <= H)
  T' (HT' : T' <= T) (SMALL : T' * (C * h ^ 4 * exp (Lip * T)) <= d / 2) : forall n m u, INR (m + n) * h = T' ->
  Rabs (u - y (INR m * h)) <= INR m * (C * h ^ 5 * exp (Lip * (INR m * h))) ->
  exists z, rk_steps f n (Some u) h = Ok (Some z) /\ Rabs (z - y T') <= T' * (C * h ^ 4 * exp (Lip * T)).
Proof using Hf HF HM HHM HH Hd HT Hbox.
  assert (M0 := M_pos). assert (L0 : 0 <= Lip) by (unfold Lip; apply Rmult_le_pos; [exact M0|]; assert (0 <= M * (1 + M * (1 + M))) by (repeat (apply Rmult_le_pos || apply Rplus_le_le_0_compat || lra)); lra).
  induction n as [|n IH]; intros m u E B.
  - rewrite Nat.add_0_r in E. exists u. split; [reflexivity|]. rewrite E in B. apply Rle_trans with (1 := B). assert (0 <= INR m * h) by (apply Rmult_le_pos; [apply pos_INR|lra]). assert (0 <= C * h ^ 4) by (apply Rmult_le_pos; [exact C0|apply pow_le; lra]).
    replace (INR m * (C * h ^ 5 * exp (Lip * T'))) with ((INR m * h) * (C * h ^ 4 * exp (Lip * T'))) by ring. rewrite E in *. apply Rmult_le_compat_l; [assumption|]. apply Rmult_le_compat_l; [assumption|].
    assert (Z : Lip * T' <= Lip * T) by (apply Rmult_le_compat_l; lra). destruct Z as [Z| ->]; [left; apply exp_increasing, Z|right; reflexivity].
  - assert (HN : INR (m + S n) = INR m + 1 + INR n) by (rewrite plus_INR, S_INR; ring). assert (Pm := pos_INR m). assert (Pn := pos_INR n).
    assert (TM : INR m * h + h <= T') by (rewrite <- E, HN; nra). assert (TM0 : 0 <= INR m * h) by (apply Rmult_le_pos; lra).
    assert (D : Dom (INR m * h) h) by (unfold Dom; lra). destruct (on_track _ _ D) as [Y _].
    assert (MT : INR m * (C * h ^ 5 * exp (Lip * (INR m * h))) <= T' * (C * h ^ 4 * exp (Lip * T))).
    { replace (INR m * (C * h ^ 5 * exp (Lip * (INR m * h)))) with ((INR m * h) * (C * h ^ 4 * exp (Lip * (INR m * h)))) by ring.
      assert (0 <= h ^ 4) by (apply pow_le; lra). assert (0 <= C * h ^ 4) by (apply Rmult_le_pos; assumption). assert (X := exp_pos (Lip * (INR m * h))).
      apply Rmult_le_compat; [exact TM0|apply Rmult_le_pos; lra|lra|]. apply Rmult_le_compat_l; [assumption|].
      assert (Z : Lip * (INR m * h) <= Lip * T) by (apply Rmult_le_compat_l; lra). destruct Z as [Z| ->]; [left; apply exp_increasing, Z|right; reflexivity]. }
    assert (UB : Rabs (u - y (INR m * h)) <= d / 2) by lra. apply Rabs_le_between in UB. assert (BX := Hbox (INR m * h) ltac:(lra)).
    assert (U : a + d / 2 <= u <= b - d / 2) by lra.
    cbn [rk_steps]. rewrite (rk4_incr u h U Hh). cbn [bind oadd omap2]. unfold oadd. cbn [omap2]. apply (IH (S m)); [replace (S m + n)%nat with (m + S n)%nat by lia; exact E|].
    assert (ST := stable u (y (INR m * h)) h U Y Hh). assert (LO := LE _ _ D).
    assert (MV : y (INR (S m) * h) = y (INR m * h) + moved (INR m * h) h) by (unfold moved; rewrite S_INR; replace ((INR m + 1) * h) with (INR m * h + h) by ring; ring).
    rewrite MV. replace (u + incr u h - (y (INR m * h) + moved (INR m * h) h)) with ((u - y (INR m * h)) + (incr u h - incr (y (INR m * h)) h) + (incr (y (INR m * h)) h - moved (INR m * h) h)) by ring.
    apply Rle_trans with (1 := Rabs_triang _ _). apply Rle_trans with (Rabs (u - y (INR m * h)) + h * Lip * Rabs (u - y (INR m * h)) + C * h ^ 5).
    { apply Rplus_le_compat; [|exact LO]. apply Rle_trans with (1 := Rabs_triang _ _). apply Rplus_le_compat_l. exact ST. }
    set (e := Rabs (u - y (INR m * h))) in *. set (W := C * h ^ 5) in *. assert (W0 : 0 <= W) by (apply Rmult_le_pos; [exact C0|apply pow_le; lra]).
    assert (EX : exp (Lip * (INR (S m) * h)) = exp (Lip * (INR m * h)) * exp (Lip * h)) by (rewrite <- exp_plus; f_equal; rewrite S_INR; ring).
    assert (G1 : 1 + Lip * h <= exp (Lip * h)) by (apply exp_ineq1_le). assert (LH : 0 <= Lip * h) by (apply Rmult_le_pos; lra).
    assert (G2 : 1 <= exp (Lip * (INR (S m) * h))). { assert (X := exp_ineq1_le (Lip * (INR (S m) * h))). assert (0 <= Lip * (INR (S m) * h)) by (apply Rmult_le_pos; [exact L0|apply Rmult_le_pos; [apply pos_INR|lra]]). lra. }
    rewrite S_INR at 1. replace (e + h * Lip * e + W) with ((1 + Lip * h) * e + W) by ring.
    replace ((INR m + 1) * (W * exp (Lip * (INR (S m) * h)))) with (exp (Lip * h) * (INR m * (W * exp (Lip * (INR m * h)))) + W * exp (Lip * (INR (S m) * h))) by (rewrite EX; ring).
    apply Rplus_le_compat; [|rewrite <- (Rmult_1_r W) at 1; apply Rmult_le_compat_l; assumption].
    apply Rmult_le_compat; [lra|apply Rabs_pos|exact G1|exact B].
Qed.
End Along.
