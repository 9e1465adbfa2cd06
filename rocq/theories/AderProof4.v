(** A uniform field through the reconstruction and the predictor. *)
From Coq Require Import Reals Lia Lra ZArith FunctionalExtensionality.
From Coquelicot Require Import Coquelicot.
From Verif Require Import Base Options Sum EqModel EqSpec FvModel FvBody FvSpec FvProof FvProps PolyModel PolyProof WenoModel WenoSpec WenoProof3 WenoProps
  DgModel DgSpec DgProof DgProof2 DgProof3 DgProps StepperModel StepperProof GridModel AderModel AderProof AderProof2 AderProof3 AderProps.
Import List ListNotations.
Open Scope nat_scope.

(** ** the reconstruction *)
Definition const1 (Q : vec) (v a : nat) : R := if a =? 0 then Q v else 0%R.
Definition const2 (Q : vec) (v a b : nat) : R := if (a =? 0) && (b =? 0) then Q v else 0%R.
Lemma pol1_const n Q v x : 1 <= n -> pol1 n (const1 Q v) x = Q v.
Proof.
  intros Hn. unfold pol1, const1. rewrite (rsum_single n 0) by (try lia; intros a Ha Ne; rewrite (proj2 (Nat.eqb_neq a 0)) by exact Ne; ring).
  cbn. ring.
Qed.
Lemma pol2_const n Q v x y : 1 <= n -> pol2 n (const2 Q v) x y = Q v.
Proof.
  intros Hn. unfold pol2, const2.
  rewrite (rsum_single n 0); [|lia|].
  - rewrite (rsum_single n 0); [cbn; ring|lia|]. intros b Hb Ne. rewrite (proj2 (Nat.eqb_neq b 0)) by exact Ne. cbn. ring.
  - intros a Ha Ne. apply rsum_zero. intros b Hb. rewrite (proj2 (Nat.eqb_neq a 0)) by exact Ne. cbn. ring.
Qed.
Lemma cell1_const n Q v p : 1 <= n -> cell1 (pol1 n (const1 Q v)) p = Q v.
Proof.
  intros Hn. unfold cell1. rewrite (RInt_ext _ (fun _ => Q v)) by (intros x _; apply pol1_const, Hn).
  rewrite RInt_const. unfold scal; cbn; unfold mult; cbn. ring.
Qed.
Lemma cell2_const n Q v p r : 1 <= n -> cell2 (pol2 n (const2 Q v)) p r = Q v.
Proof.
  intros Hn. unfold cell2. rewrite (RInt_ext _ (fun _ => Q v)).
  - rewrite RInt_const. unfold scal; cbn; unfold mult; cbn. ring.
  - intros x _. rewrite (RInt_ext _ (fun _ => Q v)) by (intros y _; apply pol2_const, Hn).
    rewrite RInt_const. unfold scal; cbn; unfold mult; cbn. ring.
Qed.

Section W.
Variables (nodes : list R) (bs : list poly) (inv : stencil -> (nat -> R) -> nat -> R) (SIG : nat -> nat -> R) (LAMS LAMC EPS : R).
Hypothesis HW : weno_setup nodes bs inv SIG LAMS LAMC EPS.
Notation n := (length nodes).
Notation launcher := (weno_launcher n SIG LAMS LAMC EPS inv).

Lemma recon1_const c Q : (forall v x, recon1 n (fun j => evaluate (nth j bs [])) c v x = Q v) -> forall s, s < n -> c s = Q.
Proof.
  intros H s Hs. destruct HW as [D [B _]]. apply functional_extensionality. intros v. rewrite <- (H v (nth s nodes 0%R)). unfold recon1.
  rewrite (rsum_single n s); [rewrite (b_node nodes bs D B s s Hs Hs), Nat.eqb_refl; ring|exact Hs|].
  intros k Hk Ne. rewrite (b_node nodes bs D B k s Hk Hs), (proj2 (Nat.eqb_neq k s)) by exact Ne. ring.
Qed.
Lemma recon2_const c Q : (forall v x y, recon2 n (fun j => evaluate (nth j bs [])) c v x y = Q v) -> forall s t, s < n -> t < n -> c s t = Q.
Proof.
  intros H s t Hs Ht. destruct HW as [D [B _]]. apply functional_extensionality. intros v. rewrite <- (H v (nth s nodes 0%R) (nth t nodes 0%R)). unfold recon2.
  rewrite (rsum_single n s); [|exact Hs|].
  - rewrite (rsum_single n t); [rewrite (b_node nodes bs D B s s Hs Hs), (b_node nodes bs D B t t Ht Ht), !Nat.eqb_refl; ring|exact Ht|].
    intros k Hk Ne. rewrite (b_node nodes bs D B k t Hk Ht), (proj2 (Nat.eqb_neq k t)) by exact Ne. ring.
  - intros k Hk Ne. apply rsum_zero. intros m Hm. rewrite (b_node nodes bs D B k s Hk Hs), (proj2 (Nat.eqb_neq k s)) by exact Ne. ring.
Qed.

(** conservative or primitive variables: the reconstruction of a uniform field is uniform *)
Definition prim_ok (prim : option ((num -> num) * (num -> num))) (Q : vec) : Prop :=
  match prim with None => True | Some (p, c) => exists P, p (Some Q) = Some P /\ c (Some P) = Some Q end.
Definition full_of (m : nat) (b : buf num) (Q : vec) : Prop := blen b = m /\ forall a, a < m -> bdat b a = Some (Some Q).
Definition reads (m : nat) (b : buf num) (Q : vec) : Prop := forall a, a < m -> rd b a = Ok (Some Q).
Lemma full_bmap m b f Q P : full_of m b Q -> f (Some Q) = Some P -> full_of m (bmap f b) P.
Proof. intros [L H] E. split; [exact L|]. intros a Ha. cbn [bmap bdat]. now rewrite H, E. Qed.
Lemma reads_bmap m b f Q P : reads m b Q -> f (Some Q) = Some P -> reads m (bmap f b) P.
Proof.
  intros H E a Ha. specialize (H a Ha). unfold rd in *. cbn [bmap blen bdat]. destruct (a <? blen b); [|discriminate].
  destruct (bdat b a); [|discriminate]. injection H as ->. now rewrite E.
Qed.

Lemma weno_uniform_1d nc nx wh ub Q : blen wh = (nx + 2) * n -> full_of (nx + 2 * n) ub Q ->
  exists wh', launcher None nc wh ub [nx] = Ok wh' /\ reads ((nx + 2) * n) wh' Q.
Proof.
  intros Lw [Lb Hb]. pose proof HW as [_ [_ [N1 _]]].
  destruct (weno_exact_1d nodes bs inv SIG LAMS LAMC EPS HW nc nx (fun _ => Q) (const1 Q) wh ub Lw Lb Hb) as [wh' [E H]]; [intros; symmetry; now apply cell1_const|].
  exists wh'. split; [exact E|]. intros a Ha. destruct (H (a / n)) as [c [Hc Rc]]; [apply Nat.div_lt_upper_bound; lia|].
  assert (Hs : a mod n < n) by (apply Nat.mod_upper_bound; lia). specialize (Hc _ Hs).
  replace (a / n * n + a mod n) with a in Hc by (rewrite (Nat.div_mod_eq a n) at 1; lia).
  rewrite (recon1_const c Q) in Hc; [exact Hc|intros v x; rewrite Rc; apply pol1_const, N1|exact Hs].
Qed.
Lemma weno_uniform_2d nc nx ny wh ub Q : (nc = true -> enough n (nx + 2) n) -> blen wh = (nx + 2) * (ny + 2) * n * n ->
  full_of ((nx + 2 * n) * (ny + 2 * n)) ub Q ->
  exists wh', launcher None nc wh ub [nx; ny] = Ok wh' /\ reads ((nx + 2) * (ny + 2) * n * n) wh' Q.
Proof.
  intros HE Lw [Lb Hb]. pose proof HW as [_ [_ [N1 _]]].
  destruct (weno_exact_2d nodes bs inv SIG LAMS LAMC EPS HW nc nx ny (fun _ => Q) (const2 Q) wh ub HE Lw Lb Hb) as [wh' [E H]]; [intros; symmetry; now apply cell2_const|].
  exists wh'. split; [exact E|]. intros a Ha. assert (N0 : n <> 0) by lia. assert (M0 : ny + 2 <> 0) by lia.
  pose proof (Nat.mod_upper_bound a n N0) as H1. pose proof (Nat.mod_upper_bound (a / n) n N0) as H2. pose proof (Nat.mod_upper_bound (a / n / n) (ny + 2) M0) as H3.
  destruct (H (a / n / n / (ny + 2)) (a / n / n mod (ny + 2))) as [c [Hc Rc]]; [|exact H3|].
  - apply Nat.div_lt_upper_bound; [lia|]. apply Nat.div_lt_upper_bound; [lia|]. apply Nat.div_lt_upper_bound; [lia|]. nia.
  - specialize (Hc _ _ H2 H1).
    replace (((a / n / n / (ny + 2) * (ny + 2) + a / n / n mod (ny + 2)) * n + a / n mod n) * n + a mod n) with a in Hc.
    + rewrite (recon2_const c Q) in Hc; [exact Hc|intros v x y; rewrite Rc; apply pol2_const, N1|exact H2|exact H1].
    + rewrite (Nat.div_mod_eq a n) at 1. rewrite (Nat.div_mod_eq (a / n) n) at 1. rewrite (Nat.div_mod_eq (a / n / n) (ny + 2)) at 1. ring.
Qed.
(** in conservative or primitive variables *)
Lemma weno_prim_uniform_1d prim nc nx wh ub Q : prim_ok prim Q -> blen wh = (nx + 2) * n -> full_of (nx + 2 * n) ub Q ->
  exists wh', launcher prim nc wh ub [nx] = Ok wh' /\ reads ((nx + 2) * n) wh' Q.
Proof.
  destruct prim as [[p c]|]; [|intros _; apply weno_uniform_1d]. intros [P [Ep Ec]] Lw Hb.
  destruct (weno_uniform_1d nc nx wh (bmap p ub) P Lw (full_bmap _ _ _ _ _ Hb Ep)) as [wh' [E H]]. unfold weno_launcher in E |- *.
  apply bind_ok in E. destruct E as [w2 [E Eq]]. injection Eq as <-. rewrite E. cbn [bind]. eexists. split; [reflexivity|]. apply (reads_bmap _ _ _ _ _ H Ec).
Qed.
Lemma weno_prim_uniform_2d prim nc nx ny wh ub Q : prim_ok prim Q -> (nc = true -> enough n (nx + 2) n) -> blen wh = (nx + 2) * (ny + 2) * n * n ->
  full_of ((nx + 2 * n) * (ny + 2 * n)) ub Q -> exists wh', launcher prim nc wh ub [nx; ny] = Ok wh' /\ reads ((nx + 2) * (ny + 2) * n * n) wh' Q.
Proof.
  destruct prim as [[p c]|]; [|intros _; apply weno_uniform_2d]. intros [P [Ep Ec]] HE Lw Hb.
  destruct (weno_uniform_2d nc nx ny wh (bmap p ub) P HE Lw (full_bmap _ _ _ _ _ Hb Ep)) as [wh' [E H]]. unfold weno_launcher in E |- *.
  apply bind_ok in E. destruct E as [w2 [E Eq]]. injection Eq as <-. rewrite E. cbn [bind]. eexists. split; [reflexivity|]. apply (reads_bmap _ _ _ _ _ H Ec).
Qed.
End W.

(** ** the predictor *)
Section P.
Variables (o : options) (ph : phys) (nodes : list R) (bs : list poly) (w : nat -> R).
Hypothesis HV : VISCOUS o = true.
Hypothesis HN : length nodes = N o.
Hypothesis HB : dg_basis nodes bs w.
Variables (dt : R) (dX : nat -> R) (DG_IT : nat) (DG_TOL : R).
Variable solve : nat -> nodal -> nodal.
Variable nonlin_solve : (option nodal -> res (option nodal)) -> option nodal -> res (option nodal).
Variable valid : nodal -> bool.
Variable nan_far : option nodal -> option nodal -> bool.
Variables (STIFF STIFF_IG : bool).
Notation M := (Mof nodes bs w).
Notation Dd := (Dmat bs (fun k => nth k nodes 0%R) w).
Notation cellpred := (predictor_cell o ph w (end_values bs) (Dv bs nodes) Dd M dt dX DG_IT DG_TOL solve nonlin_solve valid nan_far STIFF STIFF_IG).

Lemma tables : (forall t, t < N o -> rsum (N o) (M t) = end_values bs 0 t) /\ (forall s, s < N o -> rsum (N o) (Dv bs nodes s) = 0%R) /\
  (forall i, i < N o -> rsum (N o) (Dd i) = 0%R) /\ (forall e, e < 2 -> rsum (N o) (end_values bs e) = 1%R).
Proof using HN HB.
  destruct HB as [DN [Hb [N1 EX]]]. rewrite <- HN. split; [|split; [|split]].
  - exact (M_one nodes bs w DN Hb N1 EX).
  - intros s Hs. apply (sum_dpsi nodes bs DN Hb N1).
  - exact (D_row nodes bs w DN Hb N1 EX).
  - intros e He. apply (sum_psi nodes bs DN Hb N1).
Qed.

(** a solver of nonlinear equations that returns its starting point when that is a root *)
Definition keeps_roots (n : nat) : Prop := forall F x y, F (Some x) = Ok (Some y) -> (forall r k, r < n -> y r k = 0%R) -> nonlin_solve F (Some x) = Ok (Some x).

Variable Q : vec.
Hypothesis HQ : forall k, source ph Q k = 0%R.

Lemma view_uniform m : exists wv, view (repeat (Some Q) m) = Some wv /\ forall s, s < m -> wv s = Q.
Proof using.
  unfold view. replace (all_finite (repeat (Some Q) m)) with true.
  - eexists. split; [reflexivity|]. intros s Hs. cbn beta.
    match goal with |- match ?X with _ => _ end = _ => replace X with (Some Q); [reflexivity|symmetry] end.
    etransitivity; [apply (nth_indep _ None (Some Q)); now rewrite repeat_length|]. apply nth_repeat.
  - symmetry. unfold all_finite. apply forallb_forall. intros x Hx. apply repeat_spec in Hx. now subst x.
Qed.
Lemma far_same n q1 q0 : (0 <= DG_TOL)%R -> (forall r k, r < n -> q1 r k = q0 r k) -> far o DG_TOL nan_far n (Some q1) (Some q0) = false.
Proof using HN.
  intros HT H. cbn [far]. destruct (existsb _ _) eqn:E; [|reflexivity]. apply existsb_exists in E. destruct E as [r [Hr E]]. apply in_seq in Hr.
  apply existsb_exists in E. destruct E as [k [_ E]]. unfold gtb in E. rewrite H in E by lia. rewrite Rminus_diag_eq, Rabs_R0 in E by reflexivity.
  destruct (Rlt_dec _ _) as [L|]; [|discriminate]. pose proof (Rabs_pos (q0 r k)). nra.
Qed.

Definition solver_of (ndim : nat) : Prop :=
  match ndim with
  | 1 => solves (N o * N o) (kron [full (N o) M; diagonal (N o) w]) (solve 1)
  | _ => solves (N o * N o * N o) (kron [full (N o) M; diagonal (N o) w; diagonal (N o) w]) (solve 2)
  end.
Definition predictor_setup (ndim : nat) : Prop :=
  (forall q, uniform q Q (N o ^ (ndim + 1)) -> valid q = true) /\
  (STIFF_IG = true -> ndim = 1) /\
  if STIFF then keeps_roots (N o ^ (ndim + 1)) else 1 <= DG_IT /\ (0 <= DG_TOL)%R /\ solver_of ndim.

Lemma pred_uniform ndim : ndim = 1 \/ ndim = 2 -> predictor_setup ndim ->
  exists q, cellpred ndim (repeat (Some Q) (N o ^ ndim)) = Ok (Some (Some q)) /\ uniform q Q (N o ^ (ndim + 1)).
Proof using HV HN HB HQ.
  intros Hn [Hval [HIG HS]]. pose proof (N_pos o nodes bs w HN HB) as N1. destruct tables as [TM [TD [TR _]]].
  destruct (view_uniform (N o ^ ndim)) as [wv [Ev Hw]]. unfold predictor_cell. rewrite Ev. cbn [option_map].
  set (q0 := standard_initial_guess o ndim wv).
  assert (U0 : uniform q0 Q (N o ^ (ndim + 1))).
  { intros s Hs k. unfold q0, standard_initial_guess. rewrite Hw; [reflexivity|]. apply Nat.mod_upper_bound, Nat.pow_nonzero. lia. }
  assert (E0 : (if STIFF_IG then stiff_initial_guess o ndim (Some wv) else Ok (Some q0)) = Ok (Some q0)).
  { destruct STIFF_IG; [|reflexivity]. unfold stiff_initial_guess. rewrite (HIG eq_refl), Nat.pow_1_r, Nat.eqb_refl. unfold q0. now rewrite (HIG eq_refl). }
  change (option_map (standard_initial_guess o ndim) (Some wv)) with (Some q0). rewrite E0. cbn [bind].
  assert (Uw : uniform wv Q (N o ^ ndim)) by (intros s Hs k; now rewrite Hw).
  set (Ww := initial_condition o w (end_values bs) ndim wv).
  (* rhs of the uniform state is the initial condition *)
  assert (RHS : exists m, rhs o ph w (Dv bs nodes) Dd dt dX ndim q0 Ww = Ok m /\ forall r k, r < N o ^ (ndim + 1) -> m r k = Ww r k).
  { destruct Hn as [->| ->]; cbn [rhs].
    - replace (N o ^ (1 + 1)) with (N o * N o) in * by (cbn; lia). apply (rhs1_uniform o ph HV w (Dv bs nodes) Dd N1 TD TR dt (dX 0) q0 Q Ww U0 HQ).
    - replace (N o ^ (2 + 1)) with (N o * N o * N o) in * by (cbn; lia). apply (rhs2_uniform o ph HV w (Dv bs nodes) Dd N1 TD TR dt (dX 0) (dX 1) q0 Q Ww U0 HQ). }
  destruct RHS as [m [Em Hm]]. destruct STIFF.
  - set (F := fun q : option nodal => lift valid (obj o ph w (Dv bs nodes) Dd M dt dX ndim Ww) q).
    assert (K : nonlin_solve F (Some q0) = Ok (Some q0)).
    { assert (OB : exists ob, obj o ph w (Dv bs nodes) Dd M dt dX ndim Ww q0 = Ok ob /\ forall r k, r < N o ^ (ndim + 1) -> ob r k = 0%R).
      { destruct Hn as [->| ->]; cbn [obj]; cbn [rhs] in Em.
        - replace (N o ^ (1 + 1)) with (N o * N o) in * by (cbn; lia). rewrite Nat.pow_1_r in Uw.
          destruct (obj1_row o ph HV w (Dv bs nodes) Dd M N1 dt (dX 0) q0 Ww) as [b [ob [Eb [Eo R]]]]. exists ob. split; [exact Eo|]. intros r k Hr.
          rewrite Em in Eb. injection Eb as <-. rewrite R, Hm by exact Hr.
          rewrite (rsum_ext _ _ (fun c => U1 o w M r c * Q k)%R) by (intros c Hc; now rewrite U0).
          rewrite (U1_uniform o w (end_values bs) M N1 TM wv Q r k Uw Hr). apply Rminus_diag_eq. reflexivity.
        - replace (N o ^ (2 + 1)) with (N o * N o * N o) in * by (cbn; lia). replace (N o ^ 2) with (N o * N o) in Uw by (cbn; lia).
          destruct (obj2_row o ph HV w (Dv bs nodes) Dd M N1 dt (dX 0) (dX 1) q0 Ww) as [b [ob [Eb [Eo R]]]]. exists ob. split; [exact Eo|]. intros r k Hr.
          rewrite Em in Eb. injection Eb as <-. rewrite R, Hm by exact Hr.
          rewrite (rsum_ext _ _ (fun c => U2 o w M r c * Q k)%R) by (intros c Hc; now rewrite U0).
          rewrite (U2_uniform o w (end_values bs) M N1 TM wv Q r k Uw Hr). apply Rminus_diag_eq. reflexivity. }
      destruct OB as [ob [Eo Ho]]. apply (HS F q0 ob); [|exact Ho]. unfold F. cbn [lift]. rewrite Hval by exact U0. rewrite Eo. reflexivity. }
    fold F. rewrite K. cbn [bind]. eauto.
  - destruct HS as [HI [HT HSol]]. destruct DG_IT as [|it]; [lia|]. cbn [picard]. cbn [lift]. rewrite Hval by exact U0. rewrite Em. cbn [bind].
    assert (S1 : forall r k, r < N o ^ (ndim + 1) -> solve ndim m r k = Q k).
    { intros r k Hr. destruct Hn as [->| ->].
      - replace (N o ^ (1 + 1)) with (N o * N o) in * by (cbn; lia). rewrite Nat.pow_1_r in Uw.
        apply (U1_inj o w M N1 (M_injective o nodes bs w HN HB) (weights_nonzero o nodes bs w HN HB) (solve 1 m) (fun _ => Q) k); [|exact Hr].
        intros r' Hr'. rewrite (solves_U1 o nodes bs w (solve 1) HSol m r' k Hr'), Hm by exact Hr'. symmetry. apply (U1_uniform o w (end_values bs) M N1 TM wv Q r' k Uw Hr').
      - replace (N o ^ (2 + 1)) with (N o * N o * N o) in * by (cbn; lia). replace (N o ^ 2) with (N o * N o) in Uw by (cbn; lia).
        apply (U2_inj o w M N1 (M_injective o nodes bs w HN HB) (weights_nonzero o nodes bs w HN HB) (solve 2 m) (fun _ => Q) k); [|exact Hr].
        intros r' Hr'. rewrite (solves_U2 o nodes bs w HN HB (solve 2) HSol m r' k Hr'), Hm by exact Hr'. symmetry. apply (U2_uniform o w (end_values bs) M N1 TM wv Q r' k Uw Hr'). }
    rewrite far_same; [|exact HT|intros r k Hr; rewrite S1, U0 by exact Hr; reflexivity]. exists (solve ndim m). split; [reflexivity|]. intros s Hs k. now apply S1.
Qed.
End P.
