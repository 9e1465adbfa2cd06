(** Fluids at rest: fluxes, faces and the space-time predictor. *)
From Coq Require Import Reals Lia Lra ZArith FunctionalExtensionality.
From Verif Require Import Base Options Sum Mat3 EqModel EqSpec EqProof FvModel FvBody FvSpec FvProof2 FvProps PolyModel WenoModel WenoProof DgModel DgSpec DgProof2 DgProof3 DgProps AderProof4 RefSpec RefProof FlatProof FlatProof3 RestSpec.
Import List ListNotations.
Open Scope R_scope.

(** ** the set of such states *)
Lemma resting_by {X} (P : X -> Prop) (f : (X -> R) -> R) E0 (q : X -> vec) :
  (forall w w', (forall x, P x -> w x = w' x) -> f w = f w') -> (forall c, f (fun _ => c) = c) -> (forall x, P x -> resting E0 (q x)) -> resting E0 (fun k => f (fun x => q x k)).
Proof.
  intros Hf Hc H.
  assert (C : forall k c, (forall x, P x -> q x k = c) -> f (fun x => q x k) = c) by (intros k c Hk; rewrite (Hf _ (fun _ => c)) by exact Hk; apply Hc).
  split; repeat split; try (apply C; intros x Px; destruct (H x Px) as [H1 (H2 & H3 & H4) (H6 & H7 & H8 & H10 & H11 & H12) _]; assumption);
    apply Hf; intros x Px; destruct (H x Px) as [_ _ _ (H9 & H13)]; assumption.
Qed.
Lemma resting_0 : resting 0 (fun _ => 0). Proof. split; repeat split; reflexivity. Qed.
Lemma resting_lin a b x y c d : resting a x -> resting b y -> resting (c * a + d * b) (fun k => c * x k + d * y k).
Proof. intros [? (? & ? & ?) (? & ? & ? & ? & ? & ?) (? & ?)] [? (? & ? & ?) (? & ? & ? & ? & ? & ?) (? & ?)]. split; repeat split; cbv beta; try nra; congruence. Qed.
Lemma resting_ext E0 x y : (forall k, (k < 14)%nat -> x k = y k) -> resting E0 x -> resting E0 y.
Proof.
  intros H [? (? & ? & ?) (? & ? & ? & ? & ? & ?) (? & ?)]. split; repeat split; rewrite <- !H by lia; assumption.
Qed.
Lemma resting_plus E0 x y : resting E0 x -> resting 0 y -> resting E0 (fun k => x k + y k).
Proof. intros Hx Hy. replace E0 with (1 * E0 + 1 * 0) by ring. apply (resting_ext _ (fun k => 1 * x k + 1 * y k)); [intros; ring|]. now apply resting_lin. Qed.
Lemma resting_scal x c : resting 0 x -> resting 0 (fun k => c * x k).
Proof. intros Hx. replace 0 with (c * 0 + 0 * 0) by ring. apply (resting_ext _ (fun k => c * x k + 0 * x k)); [intros; ring|]. now apply resting_lin. Qed.
Lemma resting_diff E0 x y : resting E0 x -> resting E0 y -> resting 0 (fun k => x k - y k).
Proof. intros Hx Hy. replace 0 with (1 * E0 + (-1) * E0) by ring. apply (resting_ext _ (fun k => 1 * x k + (-1) * y k)); [intros; ring|]. now apply resting_lin. Qed.
Lemma resting_rsum n (x : nat -> vec) : (forall i, (i < n)%nat -> resting 0 (x i)) -> resting 0 (fun k => rsum n (fun i => x i k)).
Proof.
  induction n as [|n IH]; intros H; cbn [rsum]; [exact resting_0|]. apply resting_plus; [apply IH; intros; apply H; lia|apply H; lia].
Qed.
Lemma resting_combination E0 n a (x : nat -> vec) : rsum n a = 1 -> (forall i, (i < n)%nat -> resting E0 (x i)) -> resting E0 (fun k => rsum n (fun i => a i * x i k)).
Proof.
  intros Ha H. apply (resting_by (fun i => (i < n)%nat) (fun w => rsum n (fun i => a i * w i))); [| |exact H].
  - intros w w' E. apply rsum_ext. intros i Hi. rewrite E by exact Hi. reflexivity.
  - intros c. rewrite rsum_scal_r, Ha. ring.
Qed.
Lemma resting_between E0 x y t : resting E0 x -> resting E0 y -> resting E0 (fun k => x k + t * (y k - x k)).
Proof. intros Hx Hy. apply resting_plus; [exact Hx|]. apply resting_scal, (resting_diff E0); assumption. Qed.

Section Face.
Variable range : R -> Prop.
Hypothesis HD : forall r, range r -> r <> 0.
Variable o : options.
Variable ph : phys.
Variables (E0 p0 : R).
Hypothesis HV : VISCOUS o = true.
Hypothesis HT : THERMAL o = false.
Hypothesis HR : rests range ph E0 p0.
Definition still_flux (d k : nat) : R := if Nat.eqb k (2 + d) then p0 else 0.
Lemma velocity_0 E1 q i : resting E1 q -> (i < 3)%nat -> velocity q i = 0.
Proof using. clear. intros [_ (H2 & H3 & H4) _ _] Hi. unfold velocity. destruct i as [|[|[|]]]; try lia; cbn [Nat.add]; rewrite ?H2, ?H3, ?H4; unfold Rdiv; ring. Qed.
Lemma flux_still q d k : (d < 2)%nat -> resting E0 q -> range (q 0%nat) -> flux o ph (fun _ => 0) q d k = still_flux d k.
Proof using HD HV HT HR.
  intros Hd Hq H0. rewrite (flux_spec o ph HV _ q d k) by (lia || apply HD, H0). destruct (HR q Hq H0) as (Hp & Hs & _).
  pose proof (velocity_0 E0 q 0 Hq ltac:(lia)) as V0. pose proof (velocity_0 E0 q 1 Hq ltac:(lia)) as V1. pose proof (velocity_0 E0 q 2 Hq ltac:(lia)) as V2.
  assert (Vd : velocity q d = 0) by (apply (velocity_0 E0); [exact Hq|lia]).
  unfold physical_flux, still_flux, heat_flux, dot3, mvec, sum3. rewrite HT, Hp. cbv zeta. rewrite ?Vd, ?V0, ?V1, ?V2. cbn [andb].
  replace (if (MULTI o && (k =? mV o))%bool then 0 else 0) with 0 by (destruct (_ && _)%bool; reflexivity). rewrite Rplus_0_l.
  destruct (Nat.eqb_spec k 0) as [->|N0]; [cbn [Nat.eqb Nat.add]; ring|]. destruct (Nat.eqb_spec k 1) as [->|N1]; [cbn [Nat.eqb Nat.add]; ring|].
  destruct (Nat.ltb_spec k 5) as [L5|G5].
  - rewrite Hs by lia. destruct (Nat.eqb_spec k (2 + d)) as [->|Ne].
    + replace (2 + d - 2)%nat with d by lia. unfold delta. rewrite Nat.eqb_refl. ring.
    + unfold delta. destruct (Nat.eqb_spec (k - 2) d); [lia|]. ring.
  - destruct (Nat.eqb_spec k (2 + d)); [lia|]. destruct (Nat.ltb k 14); [ring|]. destruct (_ && _)%bool; ring.
Qed.
Lemma noncons_still E1 q x d k : (d < 3)%nat -> resting E1 q -> noncons o q x d k = 0.
Proof using.
  clear. intros Hd Hq. unfold noncons, sum3. cbv zeta. rewrite (velocity_0 E1 q d Hq Hd), !(velocity_0 E1 q) by (exact Hq || lia). destruct (_ && _)%bool; [ring|]. destruct (_ && _)%bool; ring.
Qed.
Variables NODES WGHTS : nat -> R.
Lemma jump_still qL qR d k : (d < 3)%nat -> resting E0 qL -> resting E0 qR -> jump o NODES WGHTS qL qR d k = 0.
Proof using.
  intros Hd HL HRr. unfold jump. cbv zeta. apply rsum_zero. intros i Hi. rewrite (noncons_still E0); [ring|exact Hd|]. apply resting_between; assumption.
Qed.
(** what passes through a face, besides the pressure, is in a set [T]: for the flux of Rusanov a density and a multiple of the identity, for exact fluxes nothing *)
Definition mild (T : vec -> Prop) (FLUX : nat) : Prop := forall qL qR d, (d < 2)%nat -> resting E0 qL -> resting E0 qR -> range (qL 0%nat) -> range (qR 0%nat) ->
  T (fun k => numflux o ph NODES WGHTS FLUX qL qR d k - still_flux d k).
Lemma rusanov_mild : mild (resting 0) 0.
Proof using HD HV HT HR.
  intros qL qR d Hd HL HRr L0 R0. unfold numflux, D, D_RUS. cbv zeta. set (m := Rmax _ _).
  apply (resting_ext _ (fun k => (m / 2) * (qL k - qR k))); [|apply resting_scal, (resting_diff E0); assumption].
  intros k Hk. assert (M : (MULTI o && (k =? mV o))%bool = false) by (unfold mV, V; rewrite HV, HT; cbn [b2n]; destruct (MULTI o); [|reflexivity]; apply Nat.eqb_neq; cbn [b2n]; lia).
  rewrite !(flux_spec o ph HV _ qR d k), !(flux_spec o ph HV _ qL d k) by (lia || apply HD; assumption). rewrite M.
  pose proof (flux_still qL d k Hd HL L0) as FL. pose proof (flux_still qR d k Hd HRr R0) as FR. rewrite (flux_spec o ph HV) in FL, FR by (lia || apply HD; assumption). rewrite M in FL, FR. lra.
Qed.
End Face.

(** ** the predictor *)
Section Predictor.
Variable range : R -> Prop.
Hypothesis HD : forall r, range r -> r <> 0.
Variable o : options.
Variable ph : phys.
Variables (nodes : list R) (bs : list poly) (w : nat -> R).
Variables (dt : R) (dX : nat -> R) (DG_IT : nat) (DG_TOL : R) (solve : nat -> nodal -> nodal).
Variable nonlin_solve : (option nodal -> res (option nodal)) -> option nodal -> res (option nodal).
Variables (valid : nodal -> bool) (nan_far : option nodal -> option nodal -> bool) (STIFF STIFF_IG : bool).
Notation N := (Options.N o).
Notation E := (end_values bs).
Notation Der := (Dv bs nodes).
Notation D := (Dmat bs (fun k => nth k nodes 0) w).
Notation M := (Mof nodes bs w).
Hypothesis HV : VISCOUS o = true.
Hypothesis HT : THERMAL o = false.
Hypothesis HL : length nodes = N.
Hypothesis HB : dg_basis nodes bs w.
Variables (E0 p0 : R).
Hypothesis HR : rests range ph E0 p0.
Notation PHI := (Phi o ph w E Der D M dt dX DG_IT DG_TOL solve nonlin_solve valid nan_far STIFF STIFF_IG).

Definition calm (n : nat) (q : nodal) : Prop := forall s, (s < n)%nat -> resting E0 (q s) /\ range (q s 0%nat).
Definition still_setup (ndim : nat) : Prop :=
  (forall q, calm (N ^ (ndim + 1)) q -> valid q = true) /\ (STIFF_IG = true -> ndim = 1%nat) /\
  if STIFF then keeps_roots nonlin_solve (N ^ (ndim + 1)) else (1 <= DG_IT)%nat /\ 0 <= DG_TOL /\ solver_of o nodes bs w solve ndim.

Lemma rhs1_still dx q Ww : calm (N * N) q -> exists m, rhs1 o ph w Der D dt dx q Ww = Ok m /\ forall r k, (r < N * N)%nat -> m r k = Ww r k.
Proof using HD HV HT HL HB HR.
  intros U. pose proof (N_pos o nodes bs w HL HB) as N1. destruct (tables o nodes bs w HL HB) as (_ & TD & TR & _).
  destruct (rhs1_ok o ph HV w Der D N1 dt dx q Ww) as [m [Em F]]. exists m. split; [exact Em|]. intros r k Hr. rewrite F by exact Hr. cbv zeta.
  assert (Ht : (r / N < N)%nat) by (apply Nat.div_lt_upper_bound; lia). pose proof (Nat.mod_upper_bound r N ltac:(lia)) as Hi.
  destruct (U r Hr) as [Ur Ur0]. destruct (HR _ Ur Ur0) as (_ & _ & ->). rewrite bdot_spec by (exact HV || lia). rewrite (noncons_still o E0) by (lia || exact Ur).
  rewrite (rsum_ext N _ (fun j => D (r mod N) j * still_flux p0 0 k)).
  - rewrite rsum_scal_r, TR by exact Hi. unfold Rdiv. ring.
  - intros j Hj. destruct (U (r / N * N + j)%nat (pack_lt _ _ _ _ Ht Hj)) as [Uj Uj0]. rewrite (flux_still range HD o ph E0 p0 HV HT HR) by (lia || assumption). reflexivity.
Qed.
Lemma rhs2_still dx dy q Ww : calm (N * N * N) q -> exists m, rhs2 o ph w Der D dt dx dy q Ww = Ok m /\ forall r k, (r < N * N * N)%nat -> m r k = Ww r k.
Proof using HD HV HT HL HB HR.
  intros U. pose proof (N_pos o nodes bs w HL HB) as N1. destruct (tables o nodes bs w HL HB) as (_ & TD & TR & _).
  destruct (rhs2_ok o ph HV w Der D N1 dt dx dy q Ww) as [m [Em F]]. exists m. split; [exact Em|]. intros r k Hr. rewrite F by exact Hr. cbv zeta.
  assert (Ht : (r / (N * N) < N)%nat) by (apply Nat.div_lt_upper_bound; lia). pose proof (Nat.mod_upper_bound r N ltac:(lia)) as Hj.
  pose proof (Nat.mod_upper_bound (r / N) N ltac:(lia)) as Hi.
  destruct (U r Hr) as [Ur Ur0]. destruct (HR _ Ur Ur0) as (_ & _ & ->). rewrite !bdot_spec by (exact HV || lia). rewrite !(noncons_still o E0) by (lia || exact Ur).
  assert (FS : forall a b c d, (a < N)%nat -> (b < N)%nat -> (c < N)%nat -> (d < 2)%nat -> flux o ph (fun _ => 0) (q ((a * N + b) * N + c)%nat) d k = still_flux p0 d k).
  { intros a b c d Ha Hb Hc Hd. destruct (U ((a * N + b) * N + c)%nat) as [Uj Uj0]; [repeat apply pack_lt; assumption|]. apply (flux_still range HD o ph E0 p0 HV HT HR); assumption. }
  rewrite (rsum_ext N _ (fun j' => D (r / N mod N)%nat j' * (w (r / (N * N))%nat * (w (r mod N) * still_flux p0 0 k) / dx))).
  2:{ intros j' Hj'. destruct (divmod N (r / (N * N) * N + j') (r mod N) Hj) as [_ ->]. rewrite FS by (lia || assumption). unfold Rdiv. ring. }
  rewrite rsum_scal_r, TR by exact Hi.
  rewrite (rsum_ext N _ (fun m => D (r mod N) m * still_flux p0 1 k)) by (intros j' Hj'; rewrite FS by (lia || assumption); reflexivity).
  rewrite rsum_scal_r, TR by exact Hj. unfold Rdiv. ring.
Qed.
(** a state that is the same at all time nodes *)
Notation kept ndim v := (standard_initial_guess o ndim v).
Lemma U1_kept v r k : (r < N * N)%nat -> rsum (N * N) (fun c => U1 o w M r c * kept 1 v c k) = initial_condition1 o w E v r k.
Proof using HL HB.
  intros Hr. pose proof (N_pos o nodes bs w HL HB) as N1. destruct (tables o nodes bs w HL HB) as (TM & _).
  pose proof (Nat.mod_upper_bound r N ltac:(lia)) as Hi. rewrite (U1_row o w M N1 (kept 1 v)) by exact Hr. unfold initial_condition1, standard_initial_guess. cbv zeta.
  rewrite (rsum_ext N _ (fun m => M (r / N) m * (w (r mod N) * v (r mod N)%nat k))).
  - rewrite rsum_scal_r, TM by (apply Nat.div_lt_upper_bound; lia). ring.
  - intros m Hm. replace (N ^ 1)%nat with N by (cbn; lia). destruct (divmod N m (r mod N) Hi) as [_ ->]. ring.
Qed.
Lemma U2_kept v r k : (r < N * N * N)%nat -> rsum (N * N * N) (fun c => U2 o w M r c * kept 2 v c k) = initial_condition2 o w E v r k.
Proof using HL HB.
  intros Hr. pose proof (N_pos o nodes bs w HL HB) as N1. destruct (tables o nodes bs w HL HB) as (TM & _).
  pose proof (Nat.mod_upper_bound r N ltac:(lia)) as Hj. pose proof (Nat.mod_upper_bound (r / N) N ltac:(lia)) as Hi.
  rewrite (U2_row o w M N1 (kept 2 v)) by exact Hr. unfold initial_condition2, standard_initial_guess. cbv zeta.
  rewrite (rsum_ext N _ (fun m => M (r / (N * N)) m * (w (r / N mod N)%nat * w (r mod N) * v (r / N mod N * N + r mod N)%nat k))).
  - rewrite rsum_scal_r, TM by (apply Nat.div_lt_upper_bound; lia). ring.
  - intros m Hm. replace (((m * N + r / N mod N) * N + r mod N) mod N ^ 2)%nat with (r / N mod N * N + r mod N)%nat; [ring|].
    replace ((m * N + r / N mod N) * N + r mod N)%nat with (r / N mod N * N + r mod N + m * N ^ 2)%nat by (cbn; lia). rewrite Nat.mod_add by (cbn; nia). symmetry. apply Nat.mod_small. cbn. rewrite Nat.mul_1_r. apply pack_lt; assumption.
Qed.

Lemma pred_still ndim v l : ndim = 1%nat \/ ndim = 2%nat -> still_setup ndim -> view l = Some v -> calm (N ^ ndim) v ->
  exists q, predictor_cell o ph w E Der D M dt dX DG_IT DG_TOL solve nonlin_solve valid nan_far STIFF STIFF_IG ndim l = Ok (Some (Some q)) /\ forall r k, (r < N ^ (ndim + 1))%nat -> q r k = kept ndim v r k.
Proof using HD HV HT HL HB HR.
  intros Hn [Hval [HIG HS]] Ev Hw. pose proof (N_pos o nodes bs w HL HB) as N1.
  unfold predictor_cell. rewrite Ev. cbn [option_map].
  set (q0 := standard_initial_guess o ndim v).
  assert (U0 : calm (N ^ (ndim + 1)) q0) by (intros s Hs; unfold q0, standard_initial_guess; apply Hw, Nat.mod_upper_bound, Nat.pow_nonzero; lia).
  assert (E00 : (if STIFF_IG then stiff_initial_guess o ndim (Some v) else Ok (Some q0)) = Ok (Some q0)).
  { destruct STIFF_IG; [|reflexivity]. unfold stiff_initial_guess. rewrite (HIG eq_refl), Nat.pow_1_r, Nat.eqb_refl. unfold q0. now rewrite (HIG eq_refl). }
  rewrite E00. cbn [bind]. set (Ww := initial_condition o w E ndim v).
  assert (RHS : exists m, rhs o ph w Der D dt dX ndim q0 Ww = Ok m /\ forall r k, (r < N ^ (ndim + 1))%nat -> m r k = Ww r k).
  { destruct Hn as [->| ->]; cbn [rhs].
    - replace (N ^ (1 + 1))%nat with (N * N)%nat in * by (cbn; lia). apply rhs1_still, U0.
    - replace (N ^ (2 + 1))%nat with (N * N * N)%nat in * by (cbn; lia). apply rhs2_still, U0. }
  destruct RHS as [m [Em Hm]]. destruct STIFF.
  - set (F := fun q : option nodal => lift valid (obj o ph w Der D M dt dX ndim Ww) q).
    assert (K : nonlin_solve F (Some q0) = Ok (Some q0)).
    { assert (OB : exists ob, obj o ph w Der D M dt dX ndim Ww q0 = Ok ob /\ forall r k, (r < N ^ (ndim + 1))%nat -> ob r k = 0).
      { destruct Hn as [->| ->]; cbn [obj]; cbn [rhs] in Em.
        - replace (N ^ (1 + 1))%nat with (N * N)%nat in * by (cbn; lia).
          destruct (obj1_row o ph HV w Der D M N1 dt (dX 0%nat) q0 Ww) as [b [ob [Eb [Eo X]]]]. exists ob. split; [exact Eo|]. intros r k Hr.
          rewrite Em in Eb. injection Eb as <-. rewrite X, Hm by exact Hr. unfold q0, Ww. rewrite U1_kept by exact Hr. apply Rminus_diag_eq. reflexivity.
        - replace (N ^ (2 + 1))%nat with (N * N * N)%nat in * by (cbn; lia).
          destruct (obj2_row o ph HV w Der D M N1 dt (dX 0%nat) (dX 1%nat) q0 Ww) as [b [ob [Eb [Eo X]]]]. exists ob. split; [exact Eo|]. intros r k Hr.
          rewrite Em in Eb. injection Eb as <-. rewrite X, Hm by exact Hr. unfold q0, Ww. rewrite U2_kept by exact Hr. apply Rminus_diag_eq. reflexivity. }
      destruct OB as [ob [Eo Ho]]. apply (HS F q0 ob); [|exact Ho]. unfold F. cbn [lift]. rewrite Hval by exact U0. rewrite Eo. reflexivity. }
    fold F. rewrite K. cbn [bind]. eauto.
  - destruct HS as [HI [HTl HSol]]. destruct DG_IT as [|it]; [lia|]. cbn [picard]. cbn [lift]. rewrite Hval by exact U0. rewrite Em. cbn [bind].
    assert (S1 : forall r k, (r < N ^ (ndim + 1))%nat -> solve ndim m r k = q0 r k).
    { intros r k Hr. destruct Hn as [->| ->].
      - replace (N ^ (1 + 1))%nat with (N * N)%nat in * by (cbn; lia).
        apply (U1_inj o w M N1 (M_injective o nodes bs w HL HB) (weights_nonzero o nodes bs w HL HB) (solve 1%nat m) q0 k); [|exact Hr].
        intros r' Hr'. rewrite (solves_U1 o nodes bs w (solve 1%nat) HSol m r' k Hr'), Hm by exact Hr'. symmetry. apply U1_kept, Hr'.
      - replace (N ^ (2 + 1))%nat with (N * N * N)%nat in * by (cbn; lia).
        apply (U2_inj o w M N1 (M_injective o nodes bs w HL HB) (weights_nonzero o nodes bs w HL HB) (solve 2%nat m) q0 k); [|exact Hr].
        intros r' Hr'. rewrite (solves_U2 o nodes bs w HL HB (solve 2%nat) HSol m r' k Hr'), Hm by exact Hr'. symmetry. apply U2_kept, Hr'. }
    rewrite (far_same o nodes HL); [|exact HTl|intros r k Hr; rewrite S1 by exact Hr; reflexivity]. exists (solve ndim m). split; [reflexivity|]. exact S1.
Qed.

Theorem predicted_still ndim q t : ndim = 1%nat \/ ndim = 2%nat -> still_setup ndim -> calm (N ^ ndim) q -> (t < N)%nat -> alike (N ^ ndim) (predicted o PHI ndim q t) q.
Proof using HD HV HT HL HB HR.
  intros Hn HS HC Ht s Hs. pose proof (N_pos o nodes bs w HL HB) as N1. unfold predicted, Phi.
  destruct (pred_still ndim _ _ Hn HS (view_all (N ^ ndim) q)) as (p & Ep & Hp).
  - intros r Hr. rewrite nth_all by exact Hr. apply HC, Hr.
  - rewrite Ep. cbn [bind option_map time_blocks]. apply functional_extensionality. intros k.
    assert (P0 : (N ^ ndim <> 0)%nat) by (apply Nat.pow_nonzero; lia).
    rewrite Hp.
    + unfold standard_initial_guess. rewrite Nat.add_comm, Nat.mod_add by exact P0. rewrite Nat.mod_small by exact Hs. rewrite nth_all by exact Hs. reflexivity.
    + rewrite Nat.pow_add_r, Nat.pow_1_r, Nat.mul_comm. nia.
Qed.
End Predictor.
