(** Plane motion stays plane: fluxes, faces and a step. *)
From Coq Require Import Reals Lia Lra ZArith FunctionalExtensionality.
From Verif Require Import Base Options Sum Mat3 EqModel EqSpec EqProof FvModel FvBody FvSpec FvProof2 FvProps PolyModel WenoModel WenoProof WenoProps DgModel DgSpec DgProof2 DgProof3 DgProps GridSpec AderProof4 Ader3Props RefSpec RefProof RefProof4 FlatProof FlatProof3 MirrorProof2 PlaneSpec.
Import List ListNotations.
Open Scope R_scope.

Section Plane.
Variable o : options.
Variable e : nat.
Hypothesis He : (e < 3)%nat.
Notation plane := (plane o e).

Lemma plane_0 : plane (fun _ => 0). Proof using. clear. intros k _. reflexivity. Qed.
Lemma plane_scal c x : plane x -> plane (fun k => c * x k). Proof using. clear. intros H k Hk. rewrite (H k Hk). ring. Qed.
Lemma plane_plus x y : plane x -> plane y -> plane (fun k => x k + y k). Proof using. clear. intros H H' k Hk. rewrite (H k Hk), (H' k Hk). ring. Qed.
Lemma plane_minus x y : plane x -> plane y -> plane (fun k => x k - y k). Proof using. clear. intros H H' k Hk. rewrite (H k Hk), (H' k Hk). ring. Qed.
Lemma plane_sum n (x : nat -> vec) : (forall i, (i < n)%nat -> plane (x i)) -> plane (fun k => rsum n (fun i => x i k)).
Proof using. clear. intros H k Hk. apply rsum_zero. intros i Hi. apply H; assumption. Qed.

(** which components these are *)
Lemma across_cases k : across o e k = true -> k = (2 + e)%nat \/ (exists j, (j < 3)%nat /\ j <> e /\ (k = 5 + 3 * e + j \/ k = 5 + 3 * j + e)%nat) \/ (THERMAL o = true /\ k = 14 + e)%nat.
Proof using He.
  unfold across. intros H. apply Bool.orb_true_iff in H. destruct H as [H|H].
  - apply Bool.orb_true_iff in H. destruct H as [H|H]; [left; apply Nat.eqb_eq, H|]. right; left.
    apply Bool.andb_true_iff in H. destruct H as [H X]. apply Bool.andb_true_iff in H. destruct H as [A B]. apply Nat.leb_le in A. apply Nat.ltb_lt in B.
    pose proof (Nat.div_mod (k - 5) 3 ltac:(lia)) as E. pose proof (Nat.mod_upper_bound (k - 5) 3 ltac:(lia)) as M. assert (Dv : ((k - 5) / 3 < 3)%nat) by (apply Nat.div_lt_upper_bound; lia).
    destruct (Nat.eqb_spec ((k - 5) / 3) e) as [E1|E1], (Nat.eqb_spec ((k - 5) mod 3) e) as [E2|E2]; try discriminate X.
    + exists ((k - 5) mod 3)%nat. repeat split; [lia|exact E2|left; lia].
    + exists ((k - 5) / 3)%nat. repeat split; [lia|exact E1|right; lia].
  - right; right. apply Bool.andb_true_iff in H. destruct H as [A B]. apply Nat.eqb_eq in B. split; assumption.
Qed.
Lemma across_v : across o e (2 + e) = true.
Proof using. clear. unfold across. rewrite Nat.eqb_refl. reflexivity. Qed.
Lemma across_row j : (j < 3)%nat -> j <> e -> across o e (5 + 3 * e + j) = true.
Proof using He. intros Hj Hne. destruct e as [|[|[|]]]; try lia; destruct j as [|[|[|]]]; try lia; reflexivity. Qed.
Lemma across_col j : (j < 3)%nat -> j <> e -> across o e (5 + 3 * j + e) = true.
Proof using He. intros Hj Hne. destruct e as [|[|[|]]]; try lia; destruct j as [|[|[|]]]; try lia; reflexivity. Qed.
Lemma across_J : THERMAL o = true -> across o e (14 + e) = true.
Proof using. clear. intros H. unfold across. rewrite H, Nat.eqb_refl. apply Bool.orb_true_r. Qed.
Lemma across_mV k : across o e k = true -> VISCOUS o = true -> MULTI o = true -> k <> mV o.
Proof using He.
  intros H HV HM E. apply across_cases in H. unfold mV in E. rewrite HV in E. cbn [b2n] in E. destruct H as [->|[(j & Hj & Hne & [->| ->])|[T ->]]]; [| | |rewrite T in E; cbn [b2n] in E]; destruct (THERMAL o); cbn [b2n] in E; lia.
Qed.

Section Phys.
Variable ph : phys.
Hypothesis HP : planar o ph e.
Hypothesis HV : VISCOUS o = true.
Lemma flux_plane ret q d : (d < 3)%nat -> d <> e -> plane ret -> plane q -> plane (flux o ph ret q d).
Proof using He HP HV.
  intros Hd Hde Hr Hq k Hk. destruct (HP q Hq) as [Hs _]. specialize (Hs d Hd Hde).
  pose proof (Hr k Hk) as R0. pose proof (across_mV k Hk HV) as NM.
  pose proof (Hq _ across_v) as V0. pose proof (fun j Hj Hne => Hq _ (across_row j Hj Hne)) as RW. pose proof (fun H => Hq _ (across_J H)) as QJ.
  apply across_cases in Hk. unfold flux. rewrite HV. cbv zeta. set (p := pressure ph q). set (S := sigma ph q d) in *.
  match goal with |- (if MULTI o then upd ?r _ _ else _) k = 0 => assert (X : r k = 0) end.
  2:{ destruct (MULTI o); [|exact X]. unfold upd. destruct (Nat.eqb_spec k (mV o)) as [E|_]; [exfalso; apply NM; auto|exact X]. }
  clear NM.
  destruct (THERMAL o) eqn:ET; rewrite !bump_at;
  destruct e as [|[|[|]]]; try lia; destruct d as [|[|[|]]]; try lia;
  destruct Hk as [->|[(j & Hj & Hne & [->| ->])|[T ->]]]; try discriminate T;
  try (destruct j as [|[|[|]]]; try lia);
  try (pose proof (RW 0%nat ltac:(lia) ltac:(lia)) as R1); try (pose proof (RW 1%nat ltac:(lia) ltac:(lia)) as R2); try (pose proof (RW 2%nat ltac:(lia) ltac:(lia)) as R3);
  try (pose proof (QJ eq_refl) as QJ0); clear RW QJ; cbn [Nat.add Nat.mul Nat.eqb] in *;
  rewrite ?R0, ?V0, ?Hs, ?R1, ?R2, ?R3, ?QJ0; unfold Rdiv; ring.
Qed.
Lemma velocity_plane q : plane q -> velocity q e = 0.
Proof using He. clear HP. intros Hq. unfold velocity. rewrite (Hq _ across_v). unfold Rdiv. ring. Qed.
Lemma noncons_plane q x d : (d < 3)%nat -> d <> e -> plane q -> plane x -> plane (noncons o q x d).
Proof using He.
  clear HP HV. intros Hd Hde Hq Hx k Hk. pose proof (Hx k Hk) as X0. unfold noncons. cbv zeta. rewrite X0.
  destruct (Nat.leb 5 k && Nat.ltb k 14)%bool eqn:EB; [|match goal with |- (if ?b then _ else _) = 0 => destruct b; [exact (Rmult_0_r _)|reflexivity] end].
  apply Bool.andb_true_iff in EB. destruct EB as [A B]. apply Nat.leb_le in A. apply Nat.ltb_lt in B.
  pose proof (velocity_plane q Hq) as V0. pose proof (fun j Hj Hne => Hx _ (across_row j Hj Hne)) as RW.
  apply across_cases in Hk. unfold sum3, delta.
  destruct e as [|[|[|]]]; try lia; destruct d as [|[|[|]]]; try lia;
  destruct Hk as [->|[(j & Hj & Hne & [->| ->])|[T ->]]]; try lia;
  (destruct j as [|[|[|]]]; try lia);
  try (pose proof (RW 0%nat ltac:(lia) ltac:(lia)) as R1); try (pose proof (RW 1%nat ltac:(lia) ltac:(lia)) as R2); try (pose proof (RW 2%nat ltac:(lia) ltac:(lia)) as R3); clear RW; cbn in *;
  rewrite ?V0, ?R1, ?R2, ?R3; ring.
Qed.

Variables NODES WGHTS : nat -> R.
Variables ENDVALS DERVALS : nat -> nat -> R.
Variable FLUX : nat.
Hypothesis HLW : level_waves o ph e FLUX.
Lemma sided_sum n (c : nat -> R) (M : nat -> mat) : (forall i, (i < n)%nat -> sided o e (M i)) -> sided o e (fun a b => rsum n (fun i => c i * M i a b)).
Proof using. clear. intros H a b Hab. apply rsum_zero. intros i Hi. rewrite (H i Hi a b Hab). ring. Qed.
Lemma numflux_plane qL qR d : (d < 3)%nat -> d <> e -> plane qL -> plane qR -> plane (numflux o ph NODES WGHTS FLUX qL qR d).
Proof using He HP HV HLW.
  intros Hd Hde HL HR k Hk.
  assert (X : forall r, plane r -> flux o ph (flux o ph r qL d) qR d k / 2 = 0).
  { intros r Hr. rewrite (flux_plane _ qR d Hd Hde); [unfold Rdiv; ring| |exact HR|exact Hk]. apply flux_plane; assumption. }
  assert (PD : plane (fun k => qL k - qR k)) by (apply plane_minus; assumption).
  assert (PT : forall c, plane (fun k => qR k + c * (qL k - qR k))) by (intros c; apply plane_plus; [exact HR|apply plane_scal, PD]).
  unfold numflux, D. destruct FLUX as [|[|[|f]]]; [| | |reflexivity]; apply X; destruct HLW as [E|[H1 H2]]; try discriminate E.
  - apply plane_scal, PD.
  - apply plane_scal, PD.
  - apply H2; [|exact PD]. apply sided_sum. intros i _. apply H1; try assumption. apply PT.
  - apply plane_sum. intros i _. apply plane_scal, H2; [|exact PD]. apply H1; try assumption. apply PT.
Qed.
Lemma jump_plane qL qR d : (d < 3)%nat -> d <> e -> plane qL -> plane qR -> plane (jump o NODES WGHTS qL qR d).
Proof using He.
  intros Hd Hde HL HR. unfold jump. cbv zeta. apply plane_sum. intros i _. apply plane_scal, noncons_plane; try assumption.
  - apply plane_plus; [exact HL|]. apply plane_scal, plane_minus; assumption.
  - apply plane_minus; assumption.
Qed.
(** blocks of nodal values *)
Notation N := (Options.N o).
Definition flat (n : nat) (q : nodal) : Prop := forall s, (s < n)%nat -> plane (q s).
Lemma end1_plane q i : flat N q -> plane (endpts1d o ENDVALS q i).
Proof using. intros H. unfold endpts1d. apply plane_sum. intros r Hr. apply plane_scal, H, Hr. Qed.
Lemma der1_plane q s : flat N q -> plane (derivs1d o DERVALS q s).
Proof using. intros H. unfold derivs1d. apply plane_sum. intros r Hr. apply plane_scal, H, Hr. Qed.
Lemma end2_plane q d i s : flat (N ^ 2) q -> (s < N)%nat -> plane (endpts2d o ENDVALS q d i s).
Proof using. intros H Hs. unfold endpts2d. destruct d; apply plane_sum; intros r Hr; apply plane_scal, H; cbn; rewrite Nat.mul_1_r; apply pack_lt; assumption. Qed.
Lemma der2_plane q d s : flat (N ^ 2) q -> (s < N ^ 2)%nat -> plane (derivs2d o DERVALS q d s).
Proof using.
  clear He HP HV. intros H Hs. assert (P : (0 < N)%nat) by (destruct N; cbn in Hs; lia). assert (S1 : (s / N < N)%nat) by (apply Nat.div_lt_upper_bound; cbn in Hs; lia). pose proof (Nat.mod_upper_bound s N ltac:(lia)) as S2.
  unfold derivs2d. cbv zeta. destruct d; apply plane_sum; intros r Hr; apply plane_scal, H; cbn; rewrite Nat.mul_1_r; apply pack_lt; assumption.
Qed.
Lemma half1_plane dt dx q : (1 <= e)%nat -> flat N q -> flat N (half1 o DERVALS ph dt dx q).
Proof using He HP HV.
  intros H1 H s Hs. unfold half1. apply plane_minus; [apply H, Hs|]. apply plane_scal.
  assert (X : plane (fun k => derivs1d o DERVALS (fun r => flux o ph (fun _ => 0) (q r) 0) s k + noncons o (q s) (derivs1d o DERVALS q s) 0 k)).
  { apply plane_plus; [apply der1_plane; intros r Hr; apply flux_plane; try lia; [exact plane_0|apply H, Hr]|]. apply noncons_plane; try lia; [apply H, Hs|apply der1_plane, H]. }
  intros k Hk. rewrite (X k Hk). unfold Rdiv. ring.
Qed.
Lemma half2_plane dt dx dy q : e = 2%nat -> flat (N ^ 2) q -> flat (N ^ 2) (half2 o DERVALS ph dt dx dy q).
Proof using He HP HV.
  intros H1 H s Hs. unfold half2. apply plane_minus; [apply H, Hs|]. apply plane_scal.
  assert (X : forall d, (d < 2)%nat -> plane (fun k => derivs2d o DERVALS (fun r => flux o ph (fun _ => 0) (q r) d) d s k + noncons o (q s) (derivs2d o DERVALS q d s) d k)).
  { intros d Hd. apply plane_plus; [apply (der2_plane (fun r => flux o ph (fun _ => 0) (q r) d)); [intros r Hr; apply flux_plane; try lia; [exact plane_0|apply H, Hr]|exact Hs]|]. apply noncons_plane; try lia; [apply H, Hs|apply der2_plane; assumption]. }
  intros k Hk. rewrite (X 0%nat ltac:(lia) k Hk), (X 1%nat ltac:(lia) k Hk). unfold Rdiv. ring.
Qed.
Lemma src_plane SRC q : plane q -> plane (src ph SRC q).
Proof using HP. clear HV. intros H k Hk. unfold src. destruct SRC; [apply (HP q H), Hk|reflexivity]. Qed.
Lemma on_plane b x : plane x -> plane (fun k => on b (x k)).
Proof using. clear. intros H k Hk. unfold on. destruct b; [apply H, Hk|reflexivity]. Qed.
Lemma div_plane x c : plane x -> plane (fun k => x k / c).
Proof using. clear. intros H k Hk. rewrite (H k Hk). unfold Rdiv. ring. Qed.
Lemma fv1_plane SRC nt w dx q m x c : (1 <= e)%nat -> (forall i t, (c <= i <= S (S c))%nat -> (t < nt)%nat -> flat N (q i t)) -> plane (x c) -> plane (fv1 o ph NODES WGHTS ENDVALS DERVALS SRC FLUX nt w dx q m x c).
Proof using He HP HV HLW.
  intros H1 HQ Hx. unfold fv1. cbv zeta. apply plane_minus; [apply plane_plus; [exact Hx|]|]; apply plane_sum; intros t Ht; apply plane_scal.
  - apply on_plane. unfold volume1. apply plane_sum. intros s Hs. apply plane_scal. apply plane_minus; [apply src_plane, HQ; lia|]. apply div_plane, noncons_plane; try lia; [apply HQ; lia|apply der1_plane, HQ; lia].
  - apply plane_minus; apply on_plane; unfold out1, in1; (first [apply plane_minus|apply plane_plus]; [apply numflux_plane|apply div_plane, jump_plane]); try lia; apply end1_plane, HQ; lia.
Qed.
Lemma fv2_plane SRC nt w dx dy q m x a b : e = 2%nat -> (forall i j t, (a <= i <= S (S a))%nat -> (b <= j <= S (S b))%nat -> (t < nt)%nat -> flat (N ^ 2) (q i j t)) -> plane (x a b) -> plane (fv2 o ph NODES WGHTS ENDVALS DERVALS SRC FLUX nt w dx dy q m x a b).
Proof using He HP HV HLW.
  intros H1 HQ Hx. unfold fv2. cbv zeta.
  assert (F : forall d l r, (d < 2)%nat -> flat (N ^ 2) l -> flat (N ^ 2) r -> plane (out2 o ph NODES WGHTS ENDVALS FLUX d l r) /\ plane (in2 o ph NODES WGHTS ENDVALS FLUX d l r)).
  { intros d l r Hd L R. unfold out2, in2. cbv zeta. split; apply plane_sum; intros s Hs; apply plane_scal; (first [apply plane_minus|apply plane_plus]; [apply numflux_plane|apply div_plane, jump_plane]); try lia; apply end2_plane; assumption. }
  apply plane_minus; [apply plane_minus; [apply plane_plus; [exact Hx|]|]|]; apply plane_sum; intros t Ht; apply plane_scal.
  - apply on_plane. unfold volume2. apply plane_sum. intros i Hi. apply plane_sum. intros j Hj. cbv zeta. assert (S1 : (i * N + j < N ^ 2)%nat) by (cbn; rewrite Nat.mul_1_r; apply pack_lt; assumption).
    apply plane_scal. apply plane_minus; [apply plane_minus; [apply src_plane, HQ; try lia; exact S1|]|]; apply div_plane, noncons_plane; try lia; first [apply HQ; try lia; exact S1|apply der2_plane; [apply HQ; lia|exact S1]].
  - apply plane_minus; apply on_plane; apply F; try lia; apply HQ; lia.
  - apply plane_minus; apply on_plane; apply F; try lia; apply HQ; lia.
Qed.
End Phys.

(** ** a step *)
Section Step.
Variables (nodes : list R) (bs : list poly).
Variables NODES WGHTS : nat -> R.
Variables ENDVALS DERVALS : nat -> nat -> R.
Variables (SIG : nat -> nat -> R) (LAMS LAMC EPS : R) (inv : stencil -> (nat -> R) -> nat -> R).
Variable wallf : nat -> nat -> num -> num.
Variable ph : phys.
Variable prim : option ((num -> num) * (num -> num)).
Variable predict : nat -> list num -> res (option (nat -> option nodal)).
Variable ode : num -> num.
Variables (SPLIT HALF : bool) (FLUX : nat) (bt : nat -> nat) (dt : R).
Notation N := (Options.N o).
Notation block1 := (block1 N SIG LAMS LAMC EPS inv prim).
Notation block2 := (block2 N SIG LAMS LAMC EPS inv prim).
Notation new1 := (new1 o NODES WGHTS ENDVALS DERVALS SIG LAMS LAMC EPS inv wallf ph prim predict ode SPLIT HALF FLUX bt dt).
Notation new2 := (new2 o NODES WGHTS ENDVALS DERVALS SIG LAMS LAMC EPS inv wallf ph prim predict ode SPLIT HALF FLUX bt dt).
Notation rec := (reconstruct N SIG LAMS LAMC EPS inv).
Hypothesis HN : length nodes = N.
Hypothesis HW : weno_setup nodes bs inv SIG LAMS LAMC EPS.
Hypothesis HV : VISCOUS o = true.
Hypothesis HP : planar o ph e.
Hypothesis HLW : level_waves o ph e FLUX.
(** rows that may be NaN *)
Definition keeps (f : num -> num) : Prop := forall q, plane q -> plane (at_numbers f q).
Hypothesis HPR : match prim with Some (p, c) => keeps p /\ keeps c | None => True end.
Hypothesis HO : SPLIT = true -> keeps ode.
Definition predicts_plane (ndim : nat) : Prop := forall q t, flat (N ^ ndim) q -> (t < N)%nat -> flat (N ^ ndim) (predicted o predict ndim q t).
Lemma rec_0 w i : (forall k, (k < 2 * N - 1)%nat -> w k = 0) -> (i < N)%nat -> rec w i = 0.
Proof using He HN HW.
  intros H Hi. pose proof (NN o nodes bs SIG LAMS LAMC EPS inv HN HW) as P.
  rewrite (reconstruct_ext N SIG LAMS LAMC EPS inv ltac:(lia) w (fun _ => 0) i); [|exact H| |exact Hi].
  - rewrite <- HN in *. apply (reconstruct_const nodes bs SIG LAMS LAMC EPS inv HW). exact Hi.
  - intros. apply (inv_ext o nodes bs SIG LAMS LAMC EPS inv HN HW); assumption.
Qed.
Lemma before_plane q : plane q -> plane (before prim q).
Proof using HPR. intros H. unfold before. destruct prim as [[p c]|]; [apply HPR, H|exact H]. Qed.
Lemma after_plane q : plane q -> plane (after prim q).
Proof using HPR. intros H. unfold after. destruct prim as [[p c]|]; [apply HPR, H|exact H]. Qed.
Lemma block1_plane E z : (forall d, (- Z.of_nat N < d < Z.of_nat N)%Z -> plane (E (z + d)%Z)) -> flat N (block1 E z).
Proof using He HN HW HPR.
  intros H s Hs. unfold RefSpec.block1. apply after_plane. intros v Hv. apply rec_0; [|exact Hs]. intros k Hk. apply before_plane; [|exact Hv].
  replace (z - Z.of_nat N + 1 + Z.of_nat k)%Z with (z + (Z.of_nat k + 1 - Z.of_nat N))%Z by lia. apply H. lia.
Qed.
Lemma block2_plane E x y : (forall d d', (- Z.of_nat N < d < Z.of_nat N)%Z -> (- Z.of_nat N < d' < Z.of_nat N)%Z -> plane (E (x + d)%Z (y + d')%Z)) -> flat (N ^ 2) (block2 E x y).
Proof using He HN HW HPR.
  intros H s Hs. pose proof (NN o nodes bs SIG LAMS LAMC EPS inv HN HW) as P. assert (S1 : (s / N < N)%nat) by (apply Nat.div_lt_upper_bound; cbn in Hs; lia). pose proof (Nat.mod_upper_bound s N ltac:(lia)) as S2.
  unfold RefSpec.block2. apply after_plane. intros v Hv. apply rec_0; [|exact S2]. intros l Hl. apply rec_0; [|exact S1]. intros k Hk. apply before_plane; [|exact Hv].
  replace (x - Z.of_nat N + 1 + Z.of_nat k)%Z with (x + (Z.of_nat k + 1 - Z.of_nat N))%Z by lia. replace (y - Z.of_nat N + 1 + Z.of_nat l)%Z with (y + (Z.of_nat l + 1 - Z.of_nat N))%Z by lia. apply H; lia.
Qed.
Definition flat_walls (ndim : nat) : Prop := forall k, (k < 2 * ndim)%nat -> (1 < bt k)%nat -> total_cell (wallf (bt k) (k / 2)) /\ keeps (wallf (bt k) (k / 2)).
Lemma extend1_plane t0 t1 d n f z : (forall y, (0 <= y < n)%Z -> exists q, f y = Some q /\ plane q) -> (1 < t0 -> total_cell (wallf t0 d) /\ keeps (wallf t0 d))%nat -> (1 < t1 -> total_cell (wallf t1 d) /\ keeps (wallf t1 d))%nat ->
  (0 < n)%Z -> (- n <= z < 2 * n)%Z -> exists q, extend1 num wallf t0 t1 d n f z = Some q /\ plane q.
Proof using.
  clear. intros H H0 H1 Hn Hz. unfold extend1.
  assert (W : forall t y, (1 < t -> total_cell (wallf t d) /\ keeps (wallf t d))%nat -> (1 < t)%nat -> (0 <= y < n)%Z -> exists q, wallf t d (f y) = Some q /\ plane q).
  { intros t y Ht T Hy. destruct (Ht T) as [A B]. destruct (H y Hy) as (q & -> & Hq). exists (at_numbers (wallf t d) q). split; [apply total_at, A|apply B, Hq]. }
  destruct (Z.ltb_spec z 0).
  - unfold ghost. destruct t0 as [|[|t0]].
    + apply H. lia.
    + apply H. pose proof (Z.mod_pos_bound z n ltac:(lia)). lia.
    + apply W; [exact H0|lia|lia].
  - destruct (Z.ltb_spec z n); [apply H; lia|]. unfold ghost. destruct t1 as [|[|t1]].
    + apply H. lia.
    + apply H. pose proof (Z.mod_pos_bound z n ltac:(lia)). lia.
    + apply W; [exact H1|lia|lia].
Qed.
Lemma relaxed_plane q : plane q -> plane (relaxed ode SPLIT q).
Proof using HO. intros Hq. unfold relaxed. destruct SPLIT; [apply HO; auto|exact Hq]. Qed.
Theorem new1_plane n dx x m c : (1 <= e)%nat -> (N <= n)%nat -> flat_walls 1 -> (SPLIT = false -> predicts_plane 1) -> (forall c, (c < n)%nat -> plane (x c)) -> (c < n)%nat -> plane (new1 n dx x m c).
Proof using He HN HW HV HP HLW HPR HO.
  intros H1 Hn HQ HPd Hx Hc. pose proof (NN o nodes bs SIG LAMS LAMC EPS inv HN HW) as P.
  assert (HE : forall z, (- Z.of_nat N <= z < Z.of_nat n + Z.of_nat N)%Z -> plane (extended1 wallf bt n x z)).
  { intros z Hz. unfold extended1. destruct (extend1_plane (bt 0%nat) (bt 1%nat) 0 (Z.of_nat n) (fun y => Some (x (Z.to_nat y))) z) as (q & -> & Hq); try lia.
    - intros y Hy. eexists. split; [reflexivity|]. apply Hx. lia.
    - intros B. apply (HQ 0%nat); [lia|exact B].
    - intros B. apply (HQ 1%nat); [lia|exact B].
    - exact Hq. }
  unfold RefSpec.new1. apply relaxed_plane. unfold raw1. apply (fv1_plane ph HP HV); [exact HLW|exact H1| |apply relaxed_plane, Hx, Hc].
  intros i t Hi Ht. unfold seen1, time_nodes in *.
  assert (B : flat N (block1 (fun z => relaxed ode SPLIT (extended1 wallf bt n x z)) (Z.of_nat i - 1))) by (apply block1_plane; intros d Hd; apply relaxed_plane, HE; lia).
  destruct SPLIT.
  - destruct (_ && HALF)%bool; [apply (half1_plane ph HP HV); assumption|exact B].
  - pose proof (HPd eq_refl (block1 (fun z => relaxed ode false (extended1 wallf bt n x z)) (Z.of_nat i - 1)) t) as X. rewrite Nat.pow_1_r in X. apply X; [exact B|exact Ht].
Qed.
Theorem new2_plane nx ny dx dy x m a b : e = 2%nat -> (N <= nx)%nat -> (N <= ny)%nat -> flat_walls 2 -> (SPLIT = false -> predicts_plane 2) -> (forall a b, (a < nx)%nat -> (b < ny)%nat -> plane (x a b)) -> (a < nx)%nat -> (b < ny)%nat ->
  plane (new2 nx ny dx dy x m a b).
Proof using He HN HW HV HP HLW HPR HO.
  intros H1 Hn Hm HQ HPd Hx Ha Hb. pose proof (NN o nodes bs SIG LAMS LAMC EPS inv HN HW) as P.
  assert (HE : forall z y, (- Z.of_nat N <= z < Z.of_nat nx + Z.of_nat N)%Z -> (- Z.of_nat N <= y < Z.of_nat ny + Z.of_nat N)%Z -> plane (extended2 wallf bt nx ny x z y)).
  { intros z y Hz Hy. unfold extended2, extend2.
    match goal with |- PlaneSpec.plane _ _ (val ?e) => assert (X : exists q, e = Some q /\ plane q); [|destruct X as (q & -> & Hq); exact Hq] end.
    apply extend1_plane; try lia.
    - intros y' Hy'. apply extend1_plane; try lia.
      + intros z' Hz'. eexists. split; [reflexivity|]. apply Hx; lia.
      + intros B. apply (HQ 0%nat); [lia|exact B].
      + intros B. apply (HQ 1%nat); [lia|exact B].
    - intros B. apply (HQ 2%nat); [lia|exact B].
    - intros B. apply (HQ 3%nat); [lia|exact B]. }
  unfold RefSpec.new2. apply relaxed_plane. unfold raw2. apply (fv2_plane ph HP HV); [exact HLW|exact H1| |apply relaxed_plane, Hx; assumption].
  intros i j t Hi Hj Ht. unfold seen2, time_nodes in *.
  assert (B : flat (N ^ 2) (block2 (fun z y => relaxed ode SPLIT (extended2 wallf bt nx ny x z y)) (Z.of_nat i - 1) (Z.of_nat j - 1))) by (apply block2_plane; intros d d' Hd Hd'; apply relaxed_plane, HE; lia).
  destruct SPLIT.
  - destruct (_ && HALF)%bool; [apply (half2_plane ph HP HV); assumption|exact B].
  - apply HPd; [reflexivity|exact B|exact Ht].
Qed.
End Step.
End Plane.
