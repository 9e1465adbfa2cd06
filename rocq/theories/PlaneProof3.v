(** Plane motion stays plane: the space-time predictor. *)
From Coq Require Import Reals Lia Lra ZArith FunctionalExtensionality.
From Verif Require Import Base Options Sum Mat3 EqModel EqSpec EqProof FvModel FvBody FvSpec FvProof2 FvProps PolyModel WenoModel WenoProof DgModel DgSpec DgProof2 DgProof3 DgProps AderProof4 RefSpec RefProof FlatProof FlatProof3 PlaneSpec PlaneProof.
Import List ListNotations.
Open Scope R_scope.

Section Predictor.
Variable o : options.
Variable e : nat.
Hypothesis He : (e < 3)%nat.
Variable ph : phys.
Variables (nodes : list R) (bs : list poly) (w : nat -> R).
Variables (dt : R) (dX : nat -> R) (DG_IT : nat) (DG_TOL : R) (solve : nat -> nodal -> nodal).
Variable nonlin_solve : (option nodal -> res (option nodal)) -> option nodal -> res (option nodal).
Variables (valid : nodal -> bool) (nan_far : option nodal -> option nodal -> bool) (STIFF STIFF_IG : bool).
Notation N := (Options.N o).
Notation E := (end_values bs).
Notation Der := (Dv bs nodes).
Notation D := (Dmat bs (fun k => nth k nodes 0) w).
Notation M := (Mof nodes bs w).
Notation plane := (plane o e).
Notation flat := (flat o e).
Hypothesis HV : VISCOUS o = true.
Hypothesis HL : length nodes = N.
Hypothesis HB : dg_basis nodes bs w.
Hypothesis HP : planar o ph e.
Notation PHI := (Phi o ph w E Der D M dt dX DG_IT DG_TOL solve nonlin_solve valid nan_far STIFF STIFF_IG).
(** a root finder that stays where the function it is given, and the start, are plane: it may combine their values, but not invent components *)
Definition plane_finder (n : nat) : Prop := forall F q0 q, (forall x y, flat n x -> F (Some x) = Ok (Some y) -> flat n y) -> flat n q0 -> nonlin_solve F (Some q0) = Ok (Some q) -> flat n q.

Lemma rhs1_plane dx q Ww m : (1 <= e)%nat -> flat (N * N) q -> flat (N * N) Ww -> rhs1 o ph w Der D dt dx q Ww = Ok m -> flat (N * N) m.
Proof using He HV HL HB HP.
  intros H1 Hq HW Em r Hr. pose proof (N_pos o nodes bs w HL HB) as N1.
  destruct (rhs1_ok o ph HV w Der D N1 dt dx q Ww) as [m' [Em' F]]. rewrite Em in Em'. injection Em' as <-. rewrite F by exact Hr. cbv zeta.
  assert (Ht : (r / N < N)%nat) by (apply Nat.div_lt_upper_bound; lia). pose proof (Nat.mod_upper_bound r N ltac:(lia)) as Hi.
  assert (BD : plane (fun k => bdot o (q r) (fun k => derivs1d o Der (fun s => q (r / N * N + s)%nat) (r mod N) k / dx) 0 k)).
  { intros k Hk. rewrite bdot_spec by (exact HV || lia). refine (noncons_plane o e He (q r) _ 0%nat _ _ _ _ k Hk); try lia; [apply Hq, Hr|]. apply div_plane, der1_plane. intros s Hs. apply Hq, pack_lt; assumption. }
  assert (FD : plane (fun k => rsum N (fun j => D (r mod N) j * flux o ph (fun _ => 0) (q (r / N * N + j)%nat) 0 k))).
  { apply plane_sum. intros j Hj. apply plane_scal, (flux_plane o e He ph HP HV); try lia; [apply plane_0|]. apply Hq, pack_lt; assumption. }
  intros k Hk. rewrite (BD k Hk), (FD k Hk), (HW r Hr k Hk), (proj2 (HP (q r) (Hq r Hr)) k Hk). unfold Rdiv. ring.
Qed.
Lemma rhs2_plane dx dy q Ww m : e = 2%nat -> flat (N * N * N) q -> flat (N * N * N) Ww -> rhs2 o ph w Der D dt dx dy q Ww = Ok m -> flat (N * N * N) m.
Proof using He HV HL HB HP.
  intros H1 Hq HW Em r Hr. pose proof (N_pos o nodes bs w HL HB) as N1.
  destruct (rhs2_ok o ph HV w Der D N1 dt dx dy q Ww) as [m' [Em' F]]. rewrite Em in Em'. injection Em' as <-. rewrite F by exact Hr. cbv zeta.
  assert (Ht : (r / (N * N) < N)%nat) by (apply Nat.div_lt_upper_bound; lia). pose proof (Nat.mod_upper_bound r N ltac:(lia)) as Hj.
  pose proof (Nat.mod_upper_bound (r / N) N ltac:(lia)) as Hi.
  assert (BD : forall d (dz : R), (d < 2)%nat -> plane (fun k => bdot o (q r) (fun k => derivs2d o Der (fun s => q (r / (N * N) * (N * N) + s)%nat) d (r / N mod N * N + r mod N)%nat k / dz) d k)).
  { intros d dz Hd k Hk. rewrite bdot_spec by (exact HV || lia). refine (noncons_plane o e He (q r) _ d _ _ _ _ k Hk); try lia; [apply Hq, Hr|]. apply div_plane, der2_plane.
    - intros s Hs. apply Hq. cbn in Hs. rewrite Nat.mul_1_r in Hs. replace (N * N * N)%nat with (N * (N * N))%nat by ring. apply pack_lt; assumption.
    - cbn. rewrite Nat.mul_1_r. apply pack_lt; assumption. }
  assert (FS : forall a b c d, (a < N)%nat -> (b < N)%nat -> (c < N)%nat -> (d < 2)%nat -> plane (flux o ph (fun _ => 0) (q ((a * N + b) * N + c)%nat) d)).
  { intros a b c d Ha Hb Hc Hd. apply (flux_plane o e He ph HP HV); try lia; [apply plane_0|]. apply Hq. repeat apply pack_lt; assumption. }
  intros k Hk. rewrite (BD 0%nat dx ltac:(lia) k Hk), (BD 1%nat dy ltac:(lia) k Hk), (HW r Hr k Hk), (proj2 (HP (q r) (Hq r Hr)) k Hk).
  rewrite !rsum_zero; [unfold Rdiv; ring| |]; intros j' Hj'; rewrite FS by (lia || assumption); unfold Rdiv; ring.
Qed.
Lemma U1_plane (p : nodal) k : (forall r, (r < N * N)%nat -> rsum (N * N) (fun c => U1 o w M r c * p c k) = 0) -> forall r, (r < N * N)%nat -> p r k = 0.
Proof using HL HB.
  intros H r Hr. pose proof (N_pos o nodes bs w HL HB) as N1. apply (U1_inj o w M N1 (M_injective o nodes bs w HL HB) (weights_nonzero o nodes bs w HL HB) p (fun _ _ => 0) k); [|exact Hr].
  intros r' Hr'. rewrite H by exact Hr'. symmetry. apply rsum_zero. intros; ring.
Qed.
Lemma U2_plane (p : nodal) k : (forall r, (r < N * N * N)%nat -> rsum (N * N * N) (fun c => U2 o w M r c * p c k) = 0) -> forall r, (r < N * N * N)%nat -> p r k = 0.
Proof using HL HB.
  intros H r Hr. pose proof (N_pos o nodes bs w HL HB) as N1. apply (U2_inj o w M N1 (M_injective o nodes bs w HL HB) (weights_nonzero o nodes bs w HL HB) p (fun _ _ => 0) k); [|exact Hr].
  intros r' Hr'. rewrite H by exact Hr'. symmetry. apply rsum_zero. intros; ring.
Qed.

Definition in_plane (n : nat) (q : option nodal) : Prop := match q with Some q => flat n q | None => True end.
Lemma picard_plane n step nan_case : (forall q q', in_plane n q -> step q = Ok q' -> in_plane n q') -> (forall q, nan_case = Ok q -> in_plane n q) ->
  forall count q0 q, in_plane n q0 -> picard o DG_TOL nan_far n count step nan_case q0 = Ok (Some q) -> in_plane n q.
Proof using.
  intros HS HN. induction count as [|c IH]; intros q0 q H0 EQ; cbn [picard] in EQ; [discriminate|]. apply bind_ok in EQ. destruct EQ as (q1 & E1 & EQ). pose proof (HS q0 q1 H0 E1) as H1.
  destruct (far o DG_TOL nan_far n q1 q0); [apply (IH q1); assumption|]. destruct q1 as [q1|].
  - injection EQ as <-. exact H1.
  - apply bind_ok in EQ. destruct EQ as (r & Er & EQ). injection EQ as <-. apply HN, Er.
Qed.
Theorem predictor_plane ndim q0 t : ndim = 1%nat \/ ndim = 2%nat -> (ndim <= e)%nat -> plane_finder (N ^ (ndim + 1)) -> solver_of o nodes bs w solve ndim -> flat (N ^ ndim) q0 -> (t < N)%nat -> flat (N ^ ndim) (predicted o PHI ndim q0 t).
Proof using He HV HL HB HP.
  intros Hn He' HF HSol Hq Ht. pose proof (N_pos o nodes bs w HL HB) as N1. unfold predicted, Phi.
  destruct (predictor_cell _ _ _ _ _ _ _ _ _ _ _ _ _ _ _ _ _ _ _) as [r| | |] eqn:ER; cbn [bind]; try (intros s _; apply plane_0). destruct r as [q|]; cbn [option_map]; [|intros s _; apply plane_0].
  enough (X : in_plane (N ^ (ndim + 1)) q).
  { destruct q as [q|]; cbn [time_blocks option_map]; [|intros s _; apply plane_0]. intros s Hs. apply X. rewrite Nat.pow_add_r, Nat.pow_1_r, Nat.mul_comm. nia. }
  unfold predictor_cell in ER. pose proof (view_all (N ^ ndim) q0) as EV. rewrite EV in ER. set (v := fun s => match nth s _ None with Some v => v | None => _ end) in *.
  assert (Hv : flat (N ^ ndim) v) by (intros s Hs; unfold v; rewrite nth_all by exact Hs; apply Hq, Hs). cbn [option_map] in ER. set (Ww := initial_condition o w E ndim v) in *.
  assert (H0 : flat (N ^ (ndim + 1)) (standard_initial_guess o ndim v)) by (intros s Hs; unfold standard_initial_guess; apply Hv, Nat.mod_upper_bound, Nat.pow_nonzero; lia).
  assert (HWw : flat (N ^ (ndim + 1)) Ww).
  { intros s Hs. unfold Ww. destruct Hn as [->| ->]; cbn [initial_condition]; unfold initial_condition1, initial_condition2; cbv zeta; apply plane_scal, Hv.
    - cbn. rewrite Nat.mul_1_r. apply Nat.mod_upper_bound; lia.
    - cbn. rewrite Nat.mul_1_r. apply pack_lt; apply Nat.mod_upper_bound; lia. }
  assert (RH : forall x m, flat (N ^ (ndim + 1)) x -> rhs o ph w Der D dt dX ndim x Ww = Ok m -> flat (N ^ (ndim + 1)) m).
  { intros x m Hx Em. destruct Hn as [->| ->]; cbn [rhs] in Em.
    - replace (N ^ (1 + 1))%nat with (N * N)%nat in * by (cbn; lia). apply (rhs1_plane (dX 0%nat) x Ww m); try assumption.
    - replace (N ^ (2 + 1))%nat with (N * N * N)%nat in * by (cbn; lia). apply (rhs2_plane (dX 0%nat) (dX 1%nat) x Ww m); try assumption. lia. }
  assert (OB : forall x y, flat (N ^ (ndim + 1)) x -> lift valid (obj o ph w Der D M dt dX ndim Ww) (Some x) = Ok (Some y) -> flat (N ^ (ndim + 1)) y).
  { intros x y Hx EY. cbn [lift] in EY. destruct (valid x); [|discriminate]. apply bind_ok in EY. destruct EY as (y' & EY & E'). injection E' as ->. intros s Hs k Hk. destruct Hn as [->| ->]; cbn [obj rhs] in *.
    - replace (N ^ (1 + 1))%nat with (N * N)%nat in * by (cbn; lia). destruct (obj1_row o ph HV w Der D M N1 dt (dX 0%nat) x Ww) as [b [ob [Eb [Eo X]]]]. rewrite EY in Eo. injection Eo as <-. rewrite X by exact Hs.
      rewrite (RH x b Hx Eb s Hs k Hk), rsum_zero; [ring|]. intros c Hc. rewrite (Hx c Hc k Hk). ring.
    - replace (N ^ (2 + 1))%nat with (N * N * N)%nat in * by (cbn; lia). destruct (obj2_row o ph HV w Der D M N1 dt (dX 0%nat) (dX 1%nat) x Ww) as [b [ob [Eb [Eo X]]]]. rewrite EY in Eo. injection Eo as <-. rewrite X by exact Hs.
      rewrite (RH x b Hx Eb s Hs k Hk), rsum_zero; [ring|]. intros c Hc. rewrite (Hx c Hc k Hk). ring. }
  assert (SG : forall q, stiff_initial_guess o ndim (Some v) = Ok q -> q = Some (standard_initial_guess o ndim v)) by (intros q1 Eq1; unfold stiff_initial_guess in Eq1; destruct (Nat.eqb _ _); [injection Eq1 as <-; reflexivity|discriminate]).
  apply bind_ok in ER. destruct ER as (q1 & E1 & ER).
  assert (Q1 : q1 = Some (standard_initial_guess o ndim v)) by (destruct STIFF_IG; [apply SG, E1|injection E1 as <-; reflexivity]). subst q1. clear E1.
  destruct STIFF.
  - apply bind_ok in ER. destruct ER as (q2 & E2 & ER). injection ER as ->. destruct q as [q|]; [|exact I]. apply (HF _ _ _ OB H0 E2).
  - refine (picard_plane (N ^ (ndim + 1)) _ _ _ _ DG_IT _ q _ ER).
    + intros x y Hx EY. destruct x as [x|]; cbn [lift] in EY; [|injection EY as <-; exact I]. destruct (valid x); [|injection EY as <-; exact I]. apply bind_ok in EY. destruct EY as (y' & EY & E'). injection E' as <-.
      apply bind_ok in EY. destruct EY as (m & Em & EY). injection EY as <-. pose proof (RH x m Hx Em) as Hm. cbn [in_plane]. intros s Hs k Hk. destruct Hn as [->| ->].
      * replace (N ^ (1 + 1))%nat with (N * N)%nat in * by (cbn; lia). apply U1_plane; [|exact Hs]. intros r Hr. rewrite (solves_U1 o nodes bs w (solve 1%nat) HSol m r k Hr). apply Hm; assumption.
      * replace (N ^ (2 + 1))%nat with (N * N * N)%nat in * by (cbn; lia). apply U2_plane; [|exact Hs]. intros r Hr. rewrite (solves_U2 o nodes bs w HL HB (solve 2%nat) HSol m r k Hr). apply Hm; assumption.
    + intros x EX. apply bind_ok in EX. destruct EX as (x1 & EX1 & EX). apply SG in EX1. subst x1. destruct x as [x|]; [|exact I]. apply (HF _ _ _ OB H0 EX).
    + exact H0.
Qed.
End Predictor.
