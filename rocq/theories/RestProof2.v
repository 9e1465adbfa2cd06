(** A step from a fluid at rest. *)
From Coq Require Import Reals Lia Lra ZArith FunctionalExtensionality.
From Verif Require Import Base Options Sum Mat3 EqModel EqSpec EqProof FvModel FvBody FvSpec FvProof2 FvProps PolyModel WenoModel WenoProof WenoProps DgModel DgSpec DgProof2 DgProof3 DgProps GridSpec AderProof4 Ader3Props RefSpec RefProof RefProof4 FlatProof FlatProof3 RestSpec RestProof.
Import List ListNotations.
Open Scope R_scope.

Section Step.
Variable range : R -> Prop.
Hypothesis HD : forall r, range r -> r <> 0.
(** the set of differences: closed under combinations *)
Variable T : vec -> Prop.
Hypothesis TX : forall x y, (forall k, x k = y k) -> T x -> T y.
Hypothesis TZ : T (fun _ => 0).
Hypothesis TL : forall x y c d, T x -> T y -> T (fun k => c * x k + d * y k).
Variable o : options.
Variables (nodes : list R) (bs : list poly).
Variables NODES WGHTS : nat -> R.
Variables ENDVALS DERVALS : nat -> nat -> R.
Variables (SIG : nat -> nat -> R) (LAMS LAMC EPS : R) (inv : stencil -> (nat -> R) -> nat -> R).
Variable wallf : nat -> nat -> num -> num.
Variable ph : phys.
Variable predict : nat -> list num -> res (option (nat -> option nodal)).
Variable ode : num -> num.
Variables (SPLIT HALF : bool) (FLUX : nat) (bt : nat -> nat) (dt : R).
Variables (E0 p0 : R).
Notation N := (Options.N o).
Notation block1 := (block1 N SIG LAMS LAMC EPS inv None).
Notation block2 := (block2 N SIG LAMS LAMC EPS inv None).
Notation new1 := (new1 o NODES WGHTS ENDVALS DERVALS SIG LAMS LAMC EPS inv wallf ph None predict ode SPLIT HALF FLUX bt dt).
Notation new2 := (new2 o NODES WGHTS ENDVALS DERVALS SIG LAMS LAMC EPS inv wallf ph None predict ode SPLIT HALF FLUX bt dt).
Notation raw1 := (raw1 o NODES WGHTS ENDVALS DERVALS SIG LAMS LAMC EPS inv wallf ph None predict ode SPLIT HALF FLUX bt dt).
Notation raw2 := (raw2 o NODES WGHTS ENDVALS DERVALS SIG LAMS LAMC EPS inv wallf ph None predict ode SPLIT HALF FLUX bt dt).
Notation calm := (calm range E0).
Notation rec := (reconstruct N SIG LAMS LAMC EPS inv).
Hypothesis HN : length nodes = N.
Hypothesis HW : weno_setup nodes bs inv SIG LAMS LAMC EPS.
Hypothesis HV : VISCOUS o = true.
Hypothesis HT : THERMAL o = false.
Hypothesis HR : rests range ph E0 p0.
Hypothesis HF : mild range o ph E0 p0 NODES WGHTS T FLUX.
Hypothesis TD : forall s, (s < N)%nat -> rsum N (DERVALS s) = 0.
Hypothesis TE : forall e, (e < 2)%nat -> rsum N (ENDVALS e) = 1.
Lemma N1 : (1 <= N)%nat. Proof using HN HW. exact (NN o nodes bs SIG LAMS LAMC EPS inv HN HW). Qed.

(** *** reconstruction *)
Lemma rec_ext w w' i : (forall k, (k < 2 * N - 1)%nat -> w k = w' k) -> (i < N)%nat -> rec w i = rec w' i.
Proof using HN HW.
  intros H Hi. pose proof N1 as P. apply reconstruct_ext; [lia|exact H| |exact Hi]. intros. apply (inv_ext o nodes bs SIG LAMS LAMC EPS inv HN HW); assumption.
Qed.
Lemma rec_const c i : (i < N)%nat -> rec (fun _ => c) i = c.
Proof using HN HW. rewrite <- HN. apply (reconstruct_const nodes bs SIG LAMS LAMC EPS inv HW). Qed.
Lemma block1_resting E z s : (forall d, (- Z.of_nat N < d < Z.of_nat N)%Z -> resting E0 (E (z + d)%Z)) -> (s < N)%nat -> resting E0 (block1 E z s).
Proof using HN HW.
  intros H Hs. unfold RefSpec.block1, after, before.
  apply (resting_by (fun k => (k < 2 * N - 1)%nat) (fun w => rec w s) E0 (fun k => E (z - Z.of_nat N + 1 + Z.of_nat k)%Z)).
  - intros w w' X. apply rec_ext; assumption.
  - intros c. apply rec_const, Hs.
  - intros k Hk. replace (z - Z.of_nat N + 1 + Z.of_nat k)%Z with (z + (Z.of_nat k + 1 - Z.of_nat N))%Z by lia. apply H. lia.
Qed.
Lemma block2_resting E x y s : (forall d e, (- Z.of_nat N < d < Z.of_nat N)%Z -> (- Z.of_nat N < e < Z.of_nat N)%Z -> resting E0 (E (x + d)%Z (y + e)%Z)) -> (s < N ^ 2)%nat -> resting E0 (block2 E x y s).
Proof using HN HW.
  intros H Hs. pose proof N1 as P. assert (S1 : (s / N < N)%nat) by (apply Nat.div_lt_upper_bound; cbn in Hs; lia). pose proof (Nat.mod_upper_bound s N ltac:(lia)) as S2.
  unfold RefSpec.block2, after, before.
  apply (resting_by (fun p : nat * nat => (fst p < 2 * N - 1)%nat /\ (snd p < 2 * N - 1)%nat) (fun w => rec (fun l => rec (fun k => w (k, l)) (s / N)%nat) (s mod N)%nat) E0
    (fun p => E (x - Z.of_nat N + 1 + Z.of_nat (fst p))%Z (y - Z.of_nat N + 1 + Z.of_nat (snd p))%Z)).
  - intros w w' X. apply rec_ext; [|exact S2]. intros l Hl. apply rec_ext; [|exact S1]. intros k Hk. apply X. split; assumption.
  - intros c. rewrite (rec_ext _ (fun _ => c)); [apply rec_const, S2| |exact S2]. intros l Hl. apply rec_const, S1.
  - intros [k l] [Hk Hl]. cbn [fst snd] in *. replace (x - Z.of_nat N + 1 + Z.of_nat k)%Z with (x + (Z.of_nat k + 1 - Z.of_nat N))%Z by lia. replace (y - Z.of_nat N + 1 + Z.of_nat l)%Z with (y + (Z.of_nat l + 1 - Z.of_nat N))%Z by lia. apply H; lia.
Qed.

(** *** boundary *)
Definition quiet (f : num -> num) : Prop := forall q, resting E0 q -> resting E0 (at_numbers f q).
Lemma extend1_resting t0 t1 d n f z : (forall y, (0 <= y < n)%Z -> exists q, f y = Some q /\ resting E0 q) -> (1 < t0 -> total_cell (wallf t0 d) /\ quiet (wallf t0 d))%nat -> (1 < t1 -> total_cell (wallf t1 d) /\ quiet (wallf t1 d))%nat ->
  (0 < n)%Z -> (- n <= z < 2 * n)%Z -> exists q, extend1 num wallf t0 t1 d n f z = Some q /\ resting E0 q.
Proof using.
  clear. intros H H0 H1 Hn Hz. unfold extend1.
  assert (W : forall t y, (1 < t -> total_cell (wallf t d) /\ quiet (wallf t d))%nat -> (1 < t)%nat -> (0 <= y < n)%Z -> exists q, wallf t d (f y) = Some q /\ resting E0 q).
  { intros t y Ht T Hy. destruct (Ht T) as [A B]. destruct (H y Hy) as (q & -> & Hq). exists (at_numbers (wallf t d) q). split; [apply total_at, A|apply B, Hq]. }
  destruct (Z.ltb_spec z 0).
  - unfold ghost. destruct t0 as [|[|t0]].
    + apply H. lia.
    + apply H. pose proof (Z.mod_pos_bound z n ltac:(lia)). lia.
    + apply W; [exact H0|lia|lia].
  - destruct (Z.ltb_spec z n); [apply H; lia|]. unfold ghost. destruct t1 as [|[|t1]].
    + apply H. lia.
    + apply H. pose proof (Z.mod_pos_bound z n ltac:(lia)). lia.
    + apply W; [exact H1|lia|lia].
Qed.

(** *** what the sums see *)
Lemma half1_still dx q : calm N q -> alike N (half1 o DERVALS ph dt dx q) q.
Proof using HD HN HV HT HR TD.
  intros C s Hs. apply functional_extensionality. intros k. unfold half1. destruct (C s Hs) as [Cs _]. rewrite (noncons_still o E0) by (lia || exact Cs).
  unfold derivs1d. rewrite (rsum_ext N _ (fun r => DERVALS s r * still_flux p0 0 k)).
  - rewrite rsum_scal_r, TD by exact Hs. unfold Rdiv. ring.
  - intros r Hr. destruct (C r Hr) as [Cr Cr0]. rewrite (flux_still range HD o ph E0 p0 HV HT HR) by (lia || assumption). reflexivity.
Qed.
Lemma half2_still dx dy q : calm (N ^ 2) q -> alike (N ^ 2) (half2 o DERVALS ph dt dx dy q) q.
Proof using HD HN HW HV HT HR TD.
  intros C s Hs. pose proof N1 as P. apply functional_extensionality. intros k. unfold half2. destruct (C s Hs) as [Cs _]. rewrite !(noncons_still o E0) by (lia || exact Cs).
  assert (S1 : (s / N < N)%nat) by (apply Nat.div_lt_upper_bound; cbn in Hs; lia). pose proof (Nat.mod_upper_bound s N ltac:(lia)) as S2.
  assert (FS : forall a b d, (a < N)%nat -> (b < N)%nat -> (d < 2)%nat -> flux o ph (fun _ => 0) (q (a * N + b)%nat) d k = still_flux p0 d k).
  { intros a b d Ha Hb Hd. destruct (C (a * N + b)%nat) as [Cr Cr0]; [cbn; rewrite Nat.mul_1_r; apply pack_lt; assumption|]. apply (flux_still range HD o ph E0 p0 HV HT HR); assumption. }
  unfold derivs2d. rewrite (rsum_ext N _ (fun r => DERVALS (s / N) r * still_flux p0 0 k)) by (intros r Hr; rewrite FS by (lia || assumption); reflexivity).
  rewrite (rsum_ext N (fun r => _ * flux o ph _ _ 1 k) (fun r => DERVALS (s mod N) r * still_flux p0 1 k)) by (intros r Hr; rewrite FS by (lia || assumption); reflexivity).
  rewrite !rsum_scal_r, !TD by assumption. unfold Rdiv. ring.
Qed.
(** the predictor keeps such a block as it is *)
Definition still_predict (ndim : nat) : Prop := forall q t, calm (N ^ ndim) q -> (t < N)%nat -> alike (N ^ ndim) (predicted o predict ndim q t) q.

(** *** sums *)
Lemma T_diff x y : T x -> T y -> T (fun k => x k - y k).
Proof using TX TL. intros Hx Hy. apply (TX (fun k => 1 * x k + (-1) * y k)); [intros; ring|]. apply TL; assumption. Qed.
Lemma T_scal x c : T x -> T (fun k => c * x k).
Proof using TX TL. intros Hx. apply (TX (fun k => c * x k + 0 * x k)); [intros; ring|]. apply TL; assumption. Qed.
Lemma T_rsum n (x : nat -> vec) : (forall i, (i < n)%nat -> T (x i)) -> T (fun k => rsum n (fun i => x i k)).
Proof using TX TZ TL.
  clear HN. induction n as [|n IH]; intros H; cbn [rsum]; [exact TZ|]. apply (TX (fun k => 1 * rsum n (fun i => x i k) + 1 * x n k)); [intros; ring|]. apply TL; [apply IH; intros; apply H; lia|apply H; lia].
Qed.
Lemma face1 l r l' r' : calm N l -> calm N r -> calm N l' -> calm N r' -> dense1 range o ENDVALS (fun s => l s 0%nat) -> dense1 range o ENDVALS (fun s => r s 0%nat) -> dense1 range o ENDVALS (fun s => l' s 0%nat) -> dense1 range o ENDVALS (fun s => r' s 0%nat) ->
  T (fun k => out1 o ph NODES WGHTS ENDVALS FLUX l r k - in1 o ph NODES WGHTS ENDVALS FLUX l' r' k).
Proof using HN HF TE TX TZ TL.
  intros L R L' R' DL DR DL' DR'. unfold out1, in1.
  assert (X : forall q e, calm N q -> (e < 2)%nat -> resting E0 (endpts1d o ENDVALS q e)) by (intros q e C He; unfold endpts1d; apply resting_combination; [apply TE, He|intros i Hi; apply C, Hi]).
  apply (TX (fun k => (numflux o ph NODES WGHTS FLUX (endpts1d o ENDVALS l 1) (endpts1d o ENDVALS r 0) 0 k - still_flux p0 0 k) - (numflux o ph NODES WGHTS FLUX (endpts1d o ENDVALS l' 1) (endpts1d o ENDVALS r' 0) 0 k - still_flux p0 0 k))).
  - intros k. rewrite !(jump_still o E0) by (lia || apply X; assumption || lia). lra.
  - apply T_diff; apply HF; try lia; try (apply X; assumption || lia); first [apply DL|apply DR|apply DL'|apply DR']; lia.
Qed.
Lemma face2 d l r l' r' : (d < 2)%nat -> calm (N ^ 2) l -> calm (N ^ 2) r -> calm (N ^ 2) l' -> calm (N ^ 2) r' ->
  dense2 range o ENDVALS (fun s => l s 0%nat) -> dense2 range o ENDVALS (fun s => r s 0%nat) -> dense2 range o ENDVALS (fun s => l' s 0%nat) -> dense2 range o ENDVALS (fun s => r' s 0%nat) ->
  T (fun k => out2 o ph NODES WGHTS ENDVALS FLUX d l r k - in2 o ph NODES WGHTS ENDVALS FLUX d l' r' k).
Proof using HN HF TE TX TZ TL.
  intros Hd L R L' R' DL DR DL' DR'. unfold out2, in2.
  assert (X : forall q e s, calm (N ^ 2) q -> (e < 2)%nat -> (s < N)%nat -> resting E0 (endpts2d o ENDVALS q d e s)).
  { intros q e s C He Hs. unfold endpts2d. destruct d; apply resting_combination; try (apply TE, He); intros i Hi; apply C; cbn; rewrite Nat.mul_1_r; apply pack_lt; assumption. }
  assert (Y : forall (q : nodal) e s, dense2 range o ENDVALS (fun s => q s 0%nat) -> (e < 2)%nat -> (s < N)%nat -> range (endpts2d o ENDVALS q d e s 0%nat)).
  { intros q e s C He Hs. unfold endpts2d. destruct C as [_ C]. destruct (C e s He Hs). destruct d; assumption. }
  apply (TX (fun k => rsum N (fun s => WGHTS s * ((numflux o ph NODES WGHTS FLUX (endpts2d o ENDVALS l d 1 s) (endpts2d o ENDVALS r d 0 s) d k - still_flux p0 d k)
    - (numflux o ph NODES WGHTS FLUX (endpts2d o ENDVALS l' d 1 s) (endpts2d o ENDVALS r' d 0 s) d k - still_flux p0 d k))))).
  - intros k. rewrite <- rsum_minus. apply rsum_ext. intros s Hs. rewrite !(jump_still o E0) by (lia || apply X; assumption || lia). lra.
  - apply T_rsum. intros s Hs. apply T_scal. apply T_diff; apply HF; try exact Hd; try (apply X; assumption || lia); apply Y; assumption || lia.
Qed.
Lemma volume1_still SRC dx q k : calm N q -> volume1 o ph WGHTS DERVALS SRC dx q k = 0.
Proof using HN HR.
  intros C. unfold volume1. apply rsum_zero. intros s Hs. destruct (C s Hs) as [Cs C0]. rewrite (noncons_still o E0) by (lia || exact Cs). unfold src. destruct (HR _ Cs C0) as (_ & _ & ->). destruct SRC; unfold Rdiv; ring.
Qed.
Lemma volume2_still SRC dx dy q k : calm (N ^ 2) q -> volume2 o ph WGHTS DERVALS SRC dx dy q k = 0.
Proof using HN HR.
  intros C. unfold volume2. apply rsum_zero. intros a Ha. apply rsum_zero. intros b Hb. cbv zeta. destruct (C (a * N + b)%nat) as [Cs C0]; [cbn; rewrite Nat.mul_1_r; apply pack_lt; assumption|].
  rewrite !(noncons_still o E0) by (lia || exact Cs). unfold src. destruct (HR _ Cs C0) as (_ & _ & ->). destruct SRC; unfold Rdiv; ring.
Qed.

(** the relaxation keeps the set, and the density *)
Hypothesis HO : SPLIT = true -> forall q, resting E0 q -> resting E0 (at_numbers ode q) /\ at_numbers ode q 0%nat = q 0%nat.
Lemma relaxed_resting q : resting E0 q -> resting E0 (relaxed ode SPLIT q) /\ relaxed ode SPLIT q 0%nat = q 0%nat.
Proof using HO. intros Hq. unfold relaxed. destruct SPLIT; [apply HO; auto|auto]. Qed.
Definition quiet_walls (ndim : nat) : Prop := forall k, (k < 2 * ndim)%nat -> (1 < bt k)%nat -> total_cell (wallf (bt k) (k / 2)) /\ quiet (wallf (bt k) (k / 2)).

Theorem new1_changes n dx x m : (forall i, (i < n)%nat -> m i = true) -> (N <= n)%nat -> quiet_walls 1 -> (SPLIT = false -> still_predict 1) -> (forall c, (c < n)%nat -> resting E0 (x c)) ->
  solid1 range o ENDVALS SIG LAMS LAMC EPS inv wallf bt n x -> 
  (forall z, (- Z.of_nat N <= z < Z.of_nat n + Z.of_nat N)%Z -> resting E0 (extended1 wallf bt n x z)) /\
  (forall z, (-1 <= z <= Z.of_nat n)%Z -> calm N (block1 (fun z => relaxed ode SPLIT (extended1 wallf bt n x z)) z)) /\
  forall c, (c < n)%nat -> T (fun k => raw1 n dx x m c k - relaxed ode SPLIT (x c) k).
Proof using HD HN HW HV HT HR HF TD TE HO TX TZ TL.
  intros Hm Hn HQ HP Hx HS. pose proof N1 as P.
  assert (HE : forall z, (- Z.of_nat N <= z < Z.of_nat n + Z.of_nat N)%Z -> resting E0 (extended1 wallf bt n x z)).
  { intros z Hz. unfold extended1. destruct (extend1_resting (bt 0%nat) (bt 1%nat) 0 (Z.of_nat n) (fun y => Some (x (Z.to_nat y))) z) as (q & -> & Hq); try lia.
    - intros y Hy. eexists. split; [reflexivity|]. apply Hx. lia.
    - intros B. apply (HQ 0%nat); [lia|exact B].
    - intros B. apply (HQ 1%nat); [lia|exact B].
    - exact Hq. }
  set (B := fun z => block1 (fun z => relaxed ode SPLIT (extended1 wallf bt n x z)) z).
  assert (B0 : forall z s, (-1 <= z <= Z.of_nat n)%Z -> (s < N)%nat -> B z s 0%nat = block1 (extended1 wallf bt n x) z s 0%nat).
  { intros z s Hz Hs. unfold B, RefSpec.block1, after, before. apply rec_ext; [|exact Hs]. intros k Hk. apply relaxed_resting, HE. lia. }
  assert (BC : forall z, (-1 <= z <= Z.of_nat n)%Z -> calm N (B z) /\ dense1 range o ENDVALS (fun s => B z s 0%nat)).
  { intros z Hz. destruct (HS z Hz) as [D1 D2]. split; [|split].
    - intros s Hs. split; [apply block1_resting; [|exact Hs]; intros d Hd; apply relaxed_resting, HE; lia|]. rewrite B0 by assumption. apply D1, Hs.
    - intros s Hs. rewrite B0 by assumption. apply D1, Hs.
    - intros e He. rewrite (rsum_ext N _ (fun r => ENDVALS e r * block1 (extended1 wallf bt n x) z r 0%nat)) by (intros r Hr; rewrite B0 by assumption; reflexivity). apply D2, He. }
  split; [exact HE|]. split; [intros z Hz; apply BC, Hz|]. intros c Hc. unfold RefSpec.raw1.
  assert (SE : forall i t, (c <= i <= S (S c))%nat -> (t < time_nodes o SPLIT)%nat ->
    alike N (seen1 o DERVALS SIG LAMS LAMC EPS inv wallf ph None predict ode SPLIT HALF bt dt n dx x m (Z.of_nat i - 1) t) (B (Z.of_nat i - 1)%Z)).
  { intros i t Hi Ht. destruct (BC (Z.of_nat i - 1)%Z ltac:(lia)) as [C _]. unfold seen1, time_nodes in *. fold (B (Z.of_nat i - 1)%Z). destruct SPLIT.
    - destruct (_ && HALF)%bool; [apply half1_still, C|intros s Hs; reflexivity].
    - pose proof (HP eq_refl (B (Z.of_nat i - 1)%Z) t) as X. rewrite Nat.pow_1_r in X. apply X; [exact C|exact Ht]. }
  apply (TX (fun k => fv1 o ph NODES WGHTS ENDVALS DERVALS (negb SPLIT) FLUX (time_nodes o SPLIT) (weight_at WGHTS SPLIT dt) dx (fun i _ => B (Z.of_nat i - 1)%Z) (fun _ => true) (fun c => relaxed ode SPLIT (x c)) c k - relaxed ode SPLIT (x c) k)).
  { intros k. f_equal. symmetry. apply fv1_ext; [exact P| | |reflexivity].
    - intros i t Hi Ht _. apply SE; assumption.
    - intros i Hi. apply spread1_full; [lia|exact Hm]. }
  unfold fv1. cbv zeta. cbn [andb FvSpec.on].
  destruct (BC (Z.of_nat c - 1)%Z ltac:(lia)) as [CL DL]. destruct (BC (Z.of_nat (S c) - 1)%Z ltac:(lia)) as [CM DM]. destruct (BC (Z.of_nat (S (S c)) - 1)%Z ltac:(lia)) as [CR DR].
  apply (TX (fun k => rsum (time_nodes o SPLIT) (fun t => - (weight_at WGHTS SPLIT dt t / dx) *
    (out1 o ph NODES WGHTS ENDVALS FLUX (B (Z.of_nat (S c) - 1)%Z) (B (Z.of_nat (S (S c)) - 1)%Z) k - in1 o ph NODES WGHTS ENDVALS FLUX (B (Z.of_nat c - 1)%Z) (B (Z.of_nat (S c) - 1)%Z) k)))).
  - intros k. rewrite (rsum_zero _ (fun t => weight_at WGHTS SPLIT dt t * _)) by (intros t Ht; rewrite volume1_still by exact CM; ring).
    rewrite (rsum_ext _ (fun t => - _ * _) (fun t => -1 * (weight_at WGHTS SPLIT dt t / dx * (out1 o ph NODES WGHTS ENDVALS FLUX (B (Z.of_nat (S c) - 1)%Z) (B (Z.of_nat (S (S c)) - 1)%Z) k - in1 o ph NODES WGHTS ENDVALS FLUX (B (Z.of_nat c - 1)%Z) (B (Z.of_nat (S c) - 1)%Z) k)))) by (intros; ring).
    rewrite rsum_scal. ring.
  - apply T_rsum. intros t Ht. apply T_scal, face1; assumption.
Qed.

Theorem new2_changes nx ny dx dy x m : (forall i j, (i < nx)%nat -> (j < ny)%nat -> m i j = true) -> (N <= nx)%nat -> (N <= ny)%nat -> quiet_walls 2 -> (SPLIT = false -> still_predict 2) -> (forall a b, (a < nx)%nat -> (b < ny)%nat -> resting E0 (x a b)) ->
  solid2 range o ENDVALS SIG LAMS LAMC EPS inv wallf bt nx ny x -> 
  (forall z y, (- Z.of_nat N <= z < Z.of_nat nx + Z.of_nat N)%Z -> (- Z.of_nat N <= y < Z.of_nat ny + Z.of_nat N)%Z -> resting E0 (extended2 wallf bt nx ny x z y)) /\
  (forall z y, (-1 <= z <= Z.of_nat nx)%Z -> (-1 <= y <= Z.of_nat ny)%Z -> calm (N ^ 2) (block2 (fun z y => relaxed ode SPLIT (extended2 wallf bt nx ny x z y)) z y)) /\
  forall a b, (a < nx)%nat -> (b < ny)%nat -> T (fun k => raw2 nx ny dx dy x m a b k - relaxed ode SPLIT (x a b) k).
Proof using HD HN HW HV HT HR HF TD TE HO TX TZ TL.
  intros Hmk Hn Hm HQ HP Hx HS. pose proof N1 as P.
  assert (HE : forall z y, (- Z.of_nat N <= z < Z.of_nat nx + Z.of_nat N)%Z -> (- Z.of_nat N <= y < Z.of_nat ny + Z.of_nat N)%Z -> resting E0 (extended2 wallf bt nx ny x z y)).
  { intros z y Hz Hy. unfold extended2, extend2.
    match goal with |- resting _ (val ?e) => assert (X : exists q, e = Some q /\ resting E0 q); [|destruct X as (q & -> & Hq); exact Hq] end.
    apply extend1_resting; try lia.
    - intros y' Hy'. apply extend1_resting; try lia.
      + intros z' Hz'. eexists. split; [reflexivity|]. apply Hx; lia.
      + intros B. apply (HQ 0%nat); [lia|exact B].
      + intros B. apply (HQ 1%nat); [lia|exact B].
    - intros B. apply (HQ 2%nat); [lia|exact B].
    - intros B. apply (HQ 3%nat); [lia|exact B]. }
  set (B := fun z y => block2 (fun z y => relaxed ode SPLIT (extended2 wallf bt nx ny x z y)) z y).
  assert (B0 : forall z y s, (-1 <= z <= Z.of_nat nx)%Z -> (-1 <= y <= Z.of_nat ny)%Z -> (s < N ^ 2)%nat -> B z y s 0%nat = block2 (extended2 wallf bt nx ny x) z y s 0%nat).
  { intros z y s Hz Hy Hs. unfold B, RefSpec.block2, after, before. assert (S1 : (s / N < N)%nat) by (apply Nat.div_lt_upper_bound; cbn in Hs; lia). pose proof (Nat.mod_upper_bound s N ltac:(lia)) as S2.
    apply rec_ext; [|exact S2]. intros l Hl. apply rec_ext; [|exact S1]. intros k Hk. apply relaxed_resting, HE; lia. }
  assert (BC : forall z y, (-1 <= z <= Z.of_nat nx)%Z -> (-1 <= y <= Z.of_nat ny)%Z -> calm (N ^ 2) (B z y) /\ dense2 range o ENDVALS (fun s => B z y s 0%nat)).
  { intros z y Hz Hy. destruct (HS z y Hz Hy) as [D1 D2]. split; [|split].
    - intros s Hs. split; [apply block2_resting; [|exact Hs]; intros d e Hd He; apply relaxed_resting, HE; lia|]. rewrite B0 by assumption. apply D1, Hs.
    - intros s Hs. rewrite B0 by assumption. apply D1, Hs.
    - intros e s He Hs. destruct (D2 e s He Hs) as [X Y].
      rewrite (rsum_ext N _ (fun r => ENDVALS e r * block2 (extended2 wallf bt nx ny x) z y (r * N + s)%nat 0%nat)) by (intros r Hr; rewrite B0; try assumption; [reflexivity|cbn; rewrite Nat.mul_1_r; apply pack_lt; assumption]).
      rewrite (rsum_ext N (fun r => ENDVALS e r * B z y (s * N + r)%nat 0%nat) (fun r => ENDVALS e r * block2 (extended2 wallf bt nx ny x) z y (s * N + r)%nat 0%nat)) by (intros r Hr; rewrite B0; try assumption; [reflexivity|cbn; rewrite Nat.mul_1_r; apply pack_lt; assumption]).
      split; assumption. }
  split; [exact HE|]. split; [intros z y Hz Hy; apply BC; assumption|]. intros a b Ha Hb. unfold RefSpec.raw2.
  assert (SE : forall i j t, (a <= i <= S (S a))%nat -> (b <= j <= S (S b))%nat -> (t < time_nodes o SPLIT)%nat ->
    alike (N ^ 2) (seen2 o DERVALS SIG LAMS LAMC EPS inv wallf ph None predict ode SPLIT HALF bt dt nx ny dx dy x m (Z.of_nat i - 1) (Z.of_nat j - 1) t) (B (Z.of_nat i - 1)%Z (Z.of_nat j - 1)%Z)).
  { intros i j t Hi Hj Ht. destruct (BC (Z.of_nat i - 1)%Z (Z.of_nat j - 1)%Z ltac:(lia) ltac:(lia)) as [C _]. unfold seen2, time_nodes in *. fold (B (Z.of_nat i - 1)%Z (Z.of_nat j - 1)%Z). destruct SPLIT.
    - destruct (_ && HALF)%bool; [apply half2_still, C|intros s Hs; reflexivity].
    - apply HP; [reflexivity|exact C|exact Ht]. }
  apply (TX (fun k => fv2 o ph NODES WGHTS ENDVALS DERVALS (negb SPLIT) FLUX (time_nodes o SPLIT) (weight_at WGHTS SPLIT dt) dx dy (fun i j _ => B (Z.of_nat i - 1)%Z (Z.of_nat j - 1)%Z) (fun _ _ => true) (fun a b => relaxed ode SPLIT (x a b)) a b k - relaxed ode SPLIT (x a b) k)).
  { intros k. f_equal. symmetry. apply fv2_ext; [exact P| | |reflexivity].
    - intros i j t Hi Hj _ Ht _. apply SE; assumption.
    - intros i j Hi Hj Hij. replace (Z.of_nat i - 1)%Z with (Z.of_nat a + (Z.of_nat i - 1 - Z.of_nat a))%Z by lia. replace (Z.of_nat j - 1)%Z with (Z.of_nat b + (Z.of_nat j - 1 - Z.of_nat b))%Z by lia. apply spread2_full; try assumption; try lia. }
  unfold fv2. cbv zeta. cbn [andb FvSpec.on].
  assert (Cc : forall i j, (a <= i <= S (S a))%nat -> (b <= j <= S (S b))%nat -> calm (N ^ 2) (B (Z.of_nat i - 1)%Z (Z.of_nat j - 1)%Z)) by (intros i j Hi Hj; apply BC; lia).
  assert (Dd : forall i j, (a <= i <= S (S a))%nat -> (b <= j <= S (S b))%nat -> dense2 range o ENDVALS (fun s => B (Z.of_nat i - 1)%Z (Z.of_nat j - 1)%Z s 0%nat)) by (intros i j Hi Hj; apply BC; lia).
  set (G := fun i j => B (Z.of_nat i - 1)%Z (Z.of_nat j - 1)%Z) in *. cbv beta in *.
  apply (TX (fun k => 1 * (rsum (time_nodes o SPLIT) (fun t => - (weight_at WGHTS SPLIT dt t / dx) *
      (out2 o ph NODES WGHTS ENDVALS FLUX 0 (G (S a) (S b)) (G (S (S a)) (S b)) k - in2 o ph NODES WGHTS ENDVALS FLUX 0 (G a (S b)) (G (S a) (S b)) k)))
    + 1 * rsum (time_nodes o SPLIT) (fun t => - (weight_at WGHTS SPLIT dt t / dy) *
      (out2 o ph NODES WGHTS ENDVALS FLUX 1 (G (S a) (S b)) (G (S a) (S (S b))) k - in2 o ph NODES WGHTS ENDVALS FLUX 1 (G (S a) b) (G (S a) (S b)) k)))).
  - intros k. rewrite (rsum_zero _ (fun t => weight_at WGHTS SPLIT dt t * _)) by (intros t Ht; rewrite volume2_still by (apply Cc; lia); ring).
    assert (NEG : forall dz (X : R), rsum (time_nodes o SPLIT) (fun t => - (weight_at WGHTS SPLIT dt t / dz) * X) = - rsum (time_nodes o SPLIT) (fun t => weight_at WGHTS SPLIT dt t / dz * X)).
    { intros dz X. rewrite <- rsum_opp. apply rsum_ext. intros; ring. }
    rewrite !NEG. unfold G. ring.
  - apply TL; apply T_rsum; intros t Ht; apply T_scal, face2; try (apply Cc; lia); try (apply Dd; lia); lia.
Qed.
End Step.
