(** C75: one split step (relaxation, reconstruction, half step, finite volume update, relaxation) on a periodic grid
    changes the totals of the conserved components by what the relaxations add, and by nothing else. *)
From Coq Require Import Reals Lia Lra ZArith FunctionalExtensionality.
From Verif Require Import Base Options Sum EqModel EqSpec FvModel FvBody FvSpec FvProof FvProps WenoModel WenoProof DgModel DgProof StepperModel StepperProof GridModel
  AderModel AderProof AderProof2 AderProof3 AderProps HomogModel SplitProof.
Import List ListNotations.
Open Scope nat_scope.

Section C75.
Variable o : options.
Variable ph : phys.
Variables NODES WGHTS : nat -> R.
Variables ENDVALS DERVALS : nat -> nat -> R.
Variables (FLUX : nat) (dt : R) (dX : nat -> R).
Variable valid : nodal -> bool.
Variables (SIG : nat -> nat -> R) (LAMS LAMC EPS : R) (inv : stencil -> (nat -> R) -> nat -> R).
Variable prim : option ((num -> num) * (num -> num)).
(** the relaxation of one cell over half a time step: any function *)
Variable ode : num -> num.
Variable HALF : bool.
Variable wallf : nat -> nat -> num -> num.
Notation split := (split_step o ph DERVALS dt dX valid NODES WGHTS ENDVALS FLUX SIG LAMS LAMC EPS inv prim ode HALF).

(** the relaxation adds c to component k of a cell, whenever it gives a number; c = 0: it leaves the component alone *)
Definition adds (k : nat) (c : R) : Prop := forall v v', ode (Some v) = Some v' -> v' k = (v k + c)%R.

Lemma bmap_whole ub f : whole ub f -> whole (bmap ode ub) (fun i => ode (f i)).
Proof using. intros H i Hi. cbn [bmap bdat blen] in *. rewrite H by exact Hi. reflexivity. Qed.
Lemma ode2_adds k c v : adds k c -> ode2 ode (fun v i => v i + c)%R v k = (v k + c)%R.
Proof using. intros H. unfold ode2. destruct (ode (Some v)) as [v'|] eqn:E; [apply H, E|reflexivity]. Qed.

Theorem split_periodic_conserves_1d nx bt u ub0 ub mask x u' x' :
  runs o FLUX dX -> 1 <= N o <= nx -> bt 0 = PERIODIC -> bt 1 = PERIODIC -> ode None = None -> holds nx u x -> full_mask [nx] mask ->
  blen ub0 = extended_dimensions [nx] (N o) -> boundaries num (N o) wallf u ub0 [nx] bt = Ok ub ->
  split u ub mask [nx] = Ok u' -> holds nx u' x' ->
  forall k c, conserved o k -> adds k c -> total1 nx x' k = (total1 nx x k + INR nx * (2 * c))%R.
Proof using.
  intros HR [N1 Nn] B0 B1 HO Hu Hfull Lb Eb Ea Hu' k cc Hk HS. destruct (full_mask_1 (nx := nx) ltac:(lia) Hfull) as [Lm Hm]. pose proof HR as [HV [HF [D0 D1]]]. destruct Hu as [Lu Du].
  destruct (periodic_1d num (N o) wallf u ub0 ub nx bt (fun i => Some (x i)) Nn ltac:(lia) B0 B1 Lu Du Lb Eb) as [Lub Wub].
  destruct (split_is_fv o ph NODES WGHTS ENDVALS DERVALS FLUX dt dX HV HF D0 D1 valid SIG LAMS LAMC EPS inv prim ode HALF (fun v i => v i + cc)%R u ub mask [nx] u' (plain u) (or_introl eq_refl) HO Ea (plain_ok u))
    as [wh [rec [u3 [w3 [w2 [Ewh [Er [E1 [E2 [E3 U2]]]]]]]]]].
  cbn [length] in Ewh, Er. rewrite Nat.pow_1_r in Ewh, Er. replace (extended_dimensions [nx] 1) with (nx + 2) in Ewh, Er by (cbn; lia).
  destruct (weno_images_1d o SIG LAMS LAMC EPS inv prim N1 (bmap ode ub) (fun i => ode (Some (x i))) nx wh ltac:(lia) Lub (bmap_whole _ _ Wub) Ewh) as [Lwh Im].
  assert (SB : forall i, i < 2 -> blen rec = nx + 2 /\ bdat rec i = bdat rec (nx + i)).
  { intros i Hi. apply (same_mid o ph DERVALS FLUX dt dX HF valid HALF 1 (N o) (nx + 2) wh mask rec i (nx + i) N1 Er Lm); [lia|lia| |intros s Hs; apply Im; assumption].
    unfold rd. rewrite Lm, (proj2 (Nat.ltb_lt _ _)), (proj2 (Nat.ltb_lt _ _)), !Hm by lia. reflexivity. }
  pose proof (proj1 (SB 0 ltac:(lia))) as Lq.
  set (q := fun i (t : nat) => match bdat rec i with Some b => unwrap b | None => zblk end).
  destruct (plain_holds (conj Lu Du)) as [P1 P2]. rewrite Lu in E1, E3.
  destruct (relax_ok vec (ode2 ode (fun v i => v i + cc)%R) nx (plain u) x P1 P2) as [u4 [F1 [L4 V4]]]. rewrite E1 in F1. injection F1 as <-.
  destruct (fv_conserves_1d o ph NODES WGHTS ENDVALS DERVALS false false FLUX dt dX nx u3 (strip rec) mask (fun c => ode2 ode (fun v i => v i + cc)%R (x c)) q (fun _ => true) HR) as [w4 [x3 [E4 [L3 [V3 C3]]]]].
  { split; [exact L4|]. split; [exact V4|]. split.
    - intros i t Hi Ht. cbn [nt_of] in *. assert (t = 0) as -> by lia. rewrite Nat.mul_1_r, Nat.add_0_r. apply rd_ok; cbn [strip blen bdat]; [rewrite Lq; assumption|reflexivity].
    - intros i Hi. apply rd_ok; [lia|apply Hm; lia]. }
  rewrite E2 in E4. injection E4 as <-.
  destruct (relax_ok vec (ode2 ode (fun v i => v i + cc)%R) nx w3 x3 L3 V3) as [w5 [F5 [L5 V5]]]. rewrite E3 in F5. injection F5 as <-.
  pose proof (finite_result Hu' U2 V5) as X.
  transitivity (total1 nx x3 k + INR nx * cc)%R; [unfold total1; rewrite <- rsum_const, <- rsum_plus; apply rsum_ext; intros c Hc; rewrite X by exact Hc; apply ode2_adds, HS|]. rewrite (C3 k Hk).
  assert (T0 : total1 nx (fun c => ode2 ode (fun v i => v i + cc)%R (x c)) k = (total1 nx x k + INR nx * cc)%R) by (unfold total1; rewrite <- rsum_const, <- rsum_plus; apply rsum_ext; intros c Hc; apply ode2_adds, HS).
  rewrite T0.
  rewrite (rsum_zero (nt_of (N o) false) (fun t => _ * rsum nx _)%R).
  2:{ intros t Ht. rewrite rsum_zero; [ring|]. intros c Hc. unfold on, sources1. apply rsum_zero. intros s Hs. unfold src. ring. }
  rewrite rsum_zero; [ring|]. intros t Ht. cbn [andb]. unfold on. cbn [nt_of] in Ht.
  assert (Q : forall i, i < 2 -> q i t = q (nx + i) t) by (intros i Hi; unfold q; now rewrite (proj2 (SB i Hi))).
  rewrite (Q 0), (Q 1) by lia. replace (nx + 0) with nx by lia. replace (nx + 1) with (S nx) by lia. ring.
Qed.

(** 2-D, when the corners are reconstructed like the other ghost cells. Missing: NO_CORNERS = true, as for C18. *)
Theorem split_periodic_conserves_2d_partial nx ny bt u ub0 ub mask x u' x' :
  runs o FLUX dX -> NO_CORNERS o = false -> 1 <= N o <= nx -> N o <= ny -> (forall k, k < 4 -> bt k = PERIODIC) -> ode None = None ->
  holds (nx * ny) u x -> full_mask [nx; ny] mask ->
  blen ub0 = extended_dimensions [nx; ny] (N o) -> boundaries num (N o) wallf u ub0 [nx; ny] bt = Ok ub ->
  split u ub mask [nx; ny] = Ok u' -> holds (nx * ny) u' x' ->
  forall k c, conserved o k -> adds k c ->
  total2 nx ny (fun a b => x' (a * ny + b)) k = (total2 nx ny (fun a b => x (a * ny + b)%nat) k + INR (nx * ny) * (2 * c))%R.
Proof using.
  intros HR NC [N1 Nn] Ny HB HO Hu Hfull Lb Eb Ea Hu' k cc Hk HS. pose proof (full_mask_2 (nx := nx) (ny := ny) ltac:(lia) ltac:(lia) Hfull) as FM. pose proof FM as [Lm Hm]. pose proof HR as [HV [HF [D0 D1]]]. destruct Hu as [Lu Du].
  destruct (periodic_2d num (N o) wallf u ub0 ub nx ny bt (fun i j => Some (x (i * ny + j))) Nn ltac:(lia) Ny ltac:(lia) HB Lu) as [Lub Wub]; [|exact Lb|exact Eb|].
  { intros i j Hi Hj. apply Du. apply pack_bound; assumption. }
  destruct (split_is_fv o ph NODES WGHTS ENDVALS DERVALS FLUX dt dX HV HF D0 D1 valid SIG LAMS LAMC EPS inv prim ode HALF (fun v i => v i + cc)%R u ub mask [nx; ny] u' (plain u) (or_intror eq_refl) HO Ea (plain_ok u))
    as [wh [rec [u3 [w3 [w2 [Ewh [Er [E1 [E2 [E3 U2]]]]]]]]]].
  cbn [length] in Ewh, Er. replace (extended_dimensions [nx; ny] 1) with ((nx + 2) * (ny + 2)) in Ewh, Er by (unfold extended_dimensions; cbn; lia).
  replace (N o ^ 2) with (N o * N o) in Ewh, Er by (cbn; lia). rewrite Nat.mul_assoc in Ewh.
  destruct (weno_images_2d o SIG LAMS LAMC EPS inv prim N1 (bmap ode ub) (fun i j => ode (Some (x (i * ny + j)))) nx ny wh NC ltac:(lia) ltac:(lia) Lub (bmap_whole _ _ Wub) Ewh) as [Lwh [ImX ImY]].
  assert (SB : forall a b, a < (nx + 2) * (ny + 2) -> b < (nx + 2) * (ny + 2) -> rd mask a = rd mask b -> (forall s, s < N o * N o -> rd wh (a * (N o * N o) + s) = rd wh (b * (N o * N o) + s)) ->
     blen rec = (nx + 2) * (ny + 2) /\ bdat rec a = bdat rec b).
  { intros a b Ha Hb Hmab Hw. apply (same_mid o ph DERVALS FLUX dt dX HF valid HALF 2 (N o * N o) ((nx + 2) * (ny + 2)) wh mask rec a b N1 Er Lm Ha Hb); [exact Hmab|exact Hw]. }
  assert (Lq : blen rec = (nx + 2) * (ny + 2)) by (destruct (SB 0 0) as [A _]; [lia|lia|reflexivity|reflexivity|exact A]).
  set (q := fun i j (t : nat) => match bdat rec (i * (ny + 2) + j) with Some b => unwrap b | None => zblk end).
  destruct (plain_holds (conj Lu Du)) as [P1 P2]. rewrite Lu in E1, E3.
  destruct (relax_ok vec (ode2 ode (fun v i => v i + cc)%R) (nx * ny) (plain u) x P1 P2) as [u4 [F1 [L4 V4]]]. rewrite E1 in F1. injection F1 as <-.
  destruct (fv_conserves_2d o ph NODES WGHTS ENDVALS DERVALS false false FLUX dt dX nx ny u3 (strip rec) mask (fun a b => ode2 ode (fun v i => v i + cc)%R (x (a * ny + b))) q (off_corner nx ny) HR) as [w4 [x3 [E4 [L3 [V3 C3]]]]].
  { split; [exact L4|]. split; [intros a b Ha Hb; apply V4, pack_bound; assumption|]. split.
    - intros i j t Hi Hj Ht. cbn [nt_of] in *. assert (t = 0) as -> by lia. rewrite Nat.mul_1_r, Nat.add_0_r. apply rd_ok; cbn [strip blen bdat]; [rewrite Lq; apply pack_bound; assumption|reflexivity].
    - intros i j Hi Hj. apply (full2_rd FM); assumption. }
  rewrite E2 in E4. injection E4 as <-.
  destruct (relax_ok vec (ode2 ode (fun v i => v i + cc)%R) (nx * ny) w3 (fun c => x3 (c / ny) (c mod ny)) L3) as [w5 [F5 [L5 V5]]].
  { intros c Hc. assert (ny <> 0) by lia. rewrite (Nat.div_mod_eq c ny) at 1. rewrite (Nat.mul_comm ny). apply V3; [apply Nat.div_lt_upper_bound; lia|apply Nat.mod_upper_bound; lia]. }
  rewrite E3 in F5. injection F5 as <-. pose proof (finite_result Hu' U2 V5) as X0.
  assert (X : forall a b, a < nx -> b < ny -> x' (a * ny + b) = ode2 ode (fun v i => v i + cc)%R (x3 a b)).
  { intros a b Ha Hb. rewrite X0 by (apply pack_bound; assumption). destruct (divmod ny a b Hb) as [-> ->]. reflexivity. }
  assert (CT : forall f g : nat -> nat -> vec, (forall a b, a < nx -> b < ny -> f a b k = (g a b k + cc)%R) -> total2 nx ny f k = (total2 nx ny g k + INR (nx * ny) * cc)%R).
  { intros f g H. unfold total2. rewrite mult_INR, Rmult_assoc, <- rsum_const, <- rsum_plus. apply rsum_ext. intros a Ha. rewrite <- rsum_const, <- rsum_plus. apply rsum_ext. intros b Hb. apply H; assumption. }
  rewrite (CT _ x3) by (intros a b Ha Hb; rewrite X by assumption; apply ode2_adds, HS). rewrite (C3 k Hk).
  rewrite (CT (fun a b => ode2 ode (fun v i => v i + cc)%R (x (a * ny + b))) (fun a b => x (a * ny + b))) by (intros a b Ha Hb; apply ode2_adds, HS).
  rewrite (rsum_zero (nt_of (N o) false) (fun t => _ * rsum nx (fun a => rsum ny (fun b => on _ (sources2 _ _ _ _ _ _))))%R).
  2:{ intros t Ht. rewrite rsum_zero; [ring|]. intros a Ha. apply rsum_zero. intros b Hb. rewrite off_x by lia. unfold on, sources2. apply rsum_zero. intros s Hs. apply rsum_zero. intros s' Hs'. unfold src. ring. }
  rewrite (rsum_zero (nt_of (N o) false) (fun t => _ / dX 0%nat * _)%R).
  2:{ intros t Ht. rewrite rsum_zero; [ring|]. intros b Hb. rewrite !off_y by lia. cbn [andb]. unfold on.
      assert (Q : forall i, i < 2 -> q i (S b) t = q (nx + i) (S b) t).
      { intros i Hi. unfold q. rewrite (proj2 (SB (i * (ny + 2) + S b) ((nx + i) * (ny + 2) + S b) ltac:(apply pack_bound; lia) ltac:(apply pack_bound; lia) ltac:(rewrite !(full2_rd FM) by lia; rewrite !off_y by lia; reflexivity) ltac:(intros s Hs; apply ImX; lia))). reflexivity. }
      rewrite (Q 0), (Q 1) by lia. replace (nx + 0) with nx by lia. replace (nx + 1) with (S nx) by lia. ring. }
  rewrite rsum_zero; [ring|]. intros t Ht. rewrite rsum_zero; [ring|]. intros a Ha. rewrite !off_x by lia. cbn [andb]. unfold on.
  assert (Q : forall j, j < 2 -> q (S a) j t = q (S a) (ny + j) t).
  { intros j Hj. unfold q. rewrite (proj2 (SB (S a * (ny + 2) + j) (S a * (ny + 2) + (ny + j)) ltac:(apply pack_bound; lia) ltac:(apply pack_bound; lia) ltac:(rewrite !(full2_rd FM) by lia; rewrite !off_x by lia; reflexivity) ltac:(intros s Hs; apply ImY; lia))). reflexivity. }
  rewrite (Q 0), (Q 1) by lia. replace (ny + 0) with ny by lia. replace (ny + 1) with (S ny) by lia. ring.
Qed.
End C75.
