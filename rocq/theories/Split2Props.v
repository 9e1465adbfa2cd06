(** C76: the half step of the split scheme, and C75: a uniform field through a whole split step. *)
From Coq Require Import Reals Lia Lra ZArith FunctionalExtensionality.
From Coquelicot Require Import Coquelicot.
From Verif Require Import Base Options Sum EqModel EqSpec EqProof FvModel FvBody FvSpec FvProof FvProof2 FvProps PolyModel PolyProof WenoModel WenoProof WenoProof3 WenoProps
  DgModel DgSpec DgProof DgProof2 DgProof3 DgProps StepperModel StepperProof GridModel GridSpec GridProps AderModel AderProof AderProof2 AderProof3 AderProps AderProof4 Ader2Props
  HomogModel SplitProof SplitProps.
Import List ListNotations.
Open Scope nat_scope.

Section C76.
Variable o : options.
Variable ph : phys.
Variables (nodes : list R) (bs : list poly) (w : nat -> R).
Variables (dt : R) (dX : nat -> R).
Notation n := (N o).
Notation psi i := (evaluate (nth i bs [])).
Notation x i := (nth i nodes 0%R).
(** the polynomials that interpolate nodal values in a cell *)
Definition interp1 (f : nat -> R) (t : R) : R := rsum n (fun s => f s * psi s t)%R.
Definition interp2 (f : nat -> R) (t y : R) : R := rsum n (fun a => rsum n (fun b => f (a * n + b)%nat * (psi a t * psi b y)))%R.

Hypothesis HV : VISCOUS o = true.
Hypothesis HN : length nodes = n.
Hypothesis HB : dg_basis nodes bs w.

Lemma der_interp1 f a : a < n -> is_derive (interp1 f) (x a) (rsum n (fun s => Dv bs nodes a s * f s))%R.
Proof using HN HB.
  intros Ha. destruct HB as [DN [Hb [N1 EX]]]. unfold interp1.
  replace (rsum n (fun s => Dv bs nodes a s * f s))%R with (rsum n (fun s => f s * evaluate (dpoly bs s) (x a)))%R by (apply rsum_ext; intros s Hs; unfold Dv; ring).
  apply (is_derive_rsum n (fun s t => f s * psi s t)%R). intros s Hs. apply (is_derive_scal (psi s) (x a) (f s)). apply (d_derive nodes bs Hb N1). rewrite HN. exact Hs.
Qed.
Lemma interp2_row f b : b < n -> forall t, interp2 f t (x b) = interp1 (fun a => f (a * n + b)) t.
Proof using HN HB.
  intros Hb t. destruct HB as [DN [Hbs [N1 EX]]]. unfold interp2, interp1. apply rsum_ext. intros a Ha. rewrite (rsum_single n b); [|exact Hb|].
  - rewrite (b_node nodes bs DN Hbs) by (rewrite HN; assumption). rewrite Nat.eqb_refl. ring.
  - intros c Hc Nc. rewrite (b_node nodes bs DN Hbs) by (rewrite HN; assumption). destruct (Nat.eqb_spec c b); [congruence|ring].
Qed.
Lemma interp2_col f a : a < n -> forall y, interp2 f (x a) y = interp1 (fun b => f (a * n + b)) y.
Proof using HN HB.
  intros Ha y. destruct HB as [DN [Hbs [N1 EX]]]. unfold interp2, interp1. rewrite (rsum_single n a); [|exact Ha|].
  - apply rsum_ext. intros b Hb. rewrite (b_node nodes bs DN Hbs) by (rewrite HN; assumption). rewrite Nat.eqb_refl. ring.
  - intros c Hc Nc. apply rsum_zero. intros b Hb. rewrite (b_node nodes bs DN Hbs) by (rewrite HN; assumption). destruct (Nat.eqb_spec c a); [congruence|ring].
Qed.

(** The half step replaces the value at each node by its first-order Taylor step over dt / 2 of the homogeneous equations:
    the derivatives are those of the polynomials interpolating the state and its physical flux at the nodes. *)
Theorem half_step_1d (q : nodal) : (forall a, a < n -> q a 0 <> 0%R) ->
  exists r, mid1 o ph (Dv bs nodes) dt dX q = Ok r /\ forall a k, a < n ->
    let dF := Derive (interp1 (fun s => physical_flux o ph (q s) 0 k)) (x a) in
    let dq i := Derive (interp1 (fun s => q s i)) (x a) in
    r a k = (q a k - dt / 2 * ((dF + noncons o (q a) dq 0 k) / dX 0))%R.
Proof using HV HN HB.
  intros HQ. unfold mid1.
  destruct (rows_ok n (fun a => let dwdx := derivs1d o (Dv bs nodes) q a in let dFdx := derivs1d o (Dv bs nodes) (fun s => flux o ph (fun _ => 0%R) (q s) 0) a in
    Bdwdx <- Bdot o (q a) dwdx 0 ;; Ok (fun k => q a k - dt / 2 * (dFdx k + Bdwdx k) / dX 0)%R)
    (fun a k => let dwdx := derivs1d o (Dv bs nodes) q a in let dFdx := derivs1d o (Dv bs nodes) (fun s => flux o ph (fun _ => 0%R) (q s) 0) a in
      q a k - dt / 2 * (dFdx k + bdot o (q a) dwdx 0 k) / dX 0)%R) as [r [E F]].
  { intros a Ha. cbv zeta. rewrite (Bdot_ok o HV) by lia. reflexivity. }
  exists r. split; [exact E|]. intros a k Ha. cbv zeta. rewrite F by exact Ha. cbv zeta. rewrite (bdot_spec o HV) by lia.
  rewrite (is_derive_unique _ _ _ (der_interp1 _ a Ha)).
  replace (derivs1d o (Dv bs nodes) (fun s => flux o ph (fun _ => 0%R) (q s) 0) a k) with (rsum n (fun s => Dv bs nodes a s * physical_flux o ph (q s) 0 k))%R.
  2:{ unfold derivs1d. apply rsum_ext. intros s Hs. rewrite (flux_spec o ph HV) by (try apply HQ; lia || assumption). destruct (_ && _)%bool; ring. }
  replace (fun i => Derive (interp1 (fun s => q s i)) (x a)) with (derivs1d o (Dv bs nodes) q a).
  2:{ apply functional_extensionality. intros i. symmetry. apply is_derive_unique. exact (der_interp1 (fun s => q s i) a Ha). }
  unfold Rdiv. ring.
Qed.

Theorem half_step_2d (q : nodal) : (forall s, s < n * n -> q s 0 <> 0%R) ->
  exists r, mid2 o ph (Dv bs nodes) dt dX q = Ok r /\ forall a b k, a < n -> b < n ->
    let s := a * n + b in
    let dF := Derive (fun t => interp2 (fun s => physical_flux o ph (q s) 0 k) t (x b)) (x a) in
    let dG := Derive (fun y => interp2 (fun s => physical_flux o ph (q s) 1 k) (x a) y) (x b) in
    let dqx i := Derive (fun t => interp2 (fun s => q s i) t (x b)) (x a) in
    let dqy i := Derive (fun y => interp2 (fun s => q s i) (x a) y) (x b) in
    r s k = (q s k - dt / 2 * ((dF + noncons o (q s) dqx 0 k) / dX 0%nat + (dG + noncons o (q s) dqy 1 k) / dX 1%nat))%R.
Proof using HV HN HB.
  intros HQ. unfold mid2.
  match goal with |- context [rows ?m ?f] => destruct (rows_ok m f
    (fun s k => (q s k - dt / 2 * ((derivs2d o (Dv bs nodes) (fun s => flux o ph (fun _ => 0%R) (q s) 0) 0 s k + bdot o (q s) (derivs2d o (Dv bs nodes) q 0 s) 0 k) / dX 0%nat
      + (derivs2d o (Dv bs nodes) (fun s => flux o ph (fun _ => 0%R) (q s) 1) 1 s k + bdot o (q s) (derivs2d o (Dv bs nodes) q 1 s) 1 k) / dX 1%nat))%R)) as [r [E F]] end.
  { intros s Hs. cbv zeta. rewrite !(Bdot_ok o HV) by lia. reflexivity. }
  exists r. split; [exact E|]. intros a b k Ha Hb. cbv zeta. rewrite F by (apply pack_bound; assumption). rewrite !(bdot_spec o HV) by lia.
  assert (DX : forall f, Derive (fun t => interp2 f t (x b)) (x a) = rsum n (fun r => Dv bs nodes a r * f (r * n + b)%nat)%R).
  { intros f. rewrite (Derive_ext _ (interp1 (fun a => f (a * n + b)))) by (intros t; apply interp2_row, Hb). apply is_derive_unique. exact (der_interp1 (fun a => f (a * n + b)) a Ha). }
  assert (DY : forall f, Derive (fun y => interp2 f (x a) y) (x b) = rsum n (fun r => Dv bs nodes b r * f (a * n + r)%nat)%R).
  { intros f. rewrite (Derive_ext _ (interp1 (fun b => f (a * n + b)))) by (intros t; apply interp2_col, Ha). apply is_derive_unique. exact (der_interp1 (fun b => f (a * n + b)) b Hb). }
  rewrite DX, DY. destruct (divmod n a b Hb) as [Dq Dm].
  assert (G0 : derivs2d o (Dv bs nodes) q 0 (a * n + b) = fun i => Derive (fun t => interp2 (fun s => q s i) t (x b)) (x a)).
  { apply functional_extensionality. intros i. rewrite DX. unfold derivs2d. rewrite Dq, Dm. reflexivity. }
  assert (G1 : derivs2d o (Dv bs nodes) q 1 (a * n + b) = fun i => Derive (fun y => interp2 (fun s => q s i) (x a) y) (x b)).
  { apply functional_extensionality. intros i. rewrite DY. unfold derivs2d. rewrite Dq, Dm. reflexivity. }
  rewrite G0, G1. unfold derivs2d. rewrite Dq, Dm.
  rewrite (rsum_ext n (fun r => Dv bs nodes a r * flux o ph (fun _ => 0) (q (r * n + b)%nat) 0 k)%R (fun r => Dv bs nodes a r * physical_flux o ph (q (r * n + b)%nat) 0 k)%R).
  2:{ intros s Hs. rewrite (flux_spec o ph HV) by (try (apply HQ, pack_bound; assumption); lia). destruct (_ && _)%bool; ring. }
  rewrite (rsum_ext n (fun r => Dv bs nodes b r * flux o ph (fun _ => 0) (q (a * n + r)%nat) 1 k)%R (fun r => Dv bs nodes b r * physical_flux o ph (q (a * n + r)%nat) 1 k)%R).
  2:{ intros s Hs. rewrite (flux_spec o ph HV) by (try (apply HQ, pack_bound; assumption); lia). destruct (_ && _)%bool; ring. }
  reflexivity.
Qed.
End C76.
Print Assumptions half_step_1d.
Print Assumptions half_step_2d.

Section Uniform.
Variable o : options.
Variable ph : phys.
Variables (nodes : list R) (bs : list poly) (w : nat -> R).
Variables (FLUX : nat) (dt : R) (dX : nat -> R).
Variable valid : nodal -> bool.
Variables (SIG : nat -> nat -> R) (LAMS LAMC EPS : R) (inv : stencil -> (nat -> R) -> nat -> R).
Variable prim : option ((num -> num) * (num -> num)).
Variable ode : num -> num.
Variable HALF : bool.
Variable wallf : nat -> nat -> num -> num.
Variables Q Q1 Q2 : vec.
Notation split := (split_step o ph (Dv bs nodes) dt dX valid (fun k => nth k nodes 0%R) w (end_values bs) FLUX SIG LAMS LAMC EPS inv prim ode HALF).
Notation midf := (mid o ph (Dv bs nodes) dt dX valid).

Hypothesis HR : runs o FLUX dX.
Hypothesis HN : length nodes = N o.
Hypothesis HB : dg_basis nodes bs w.
Hypothesis HW : weno_setup nodes bs inv SIG LAMS LAMC EPS.
(** the relaxation takes the uniform state Q to Q1 and that to Q2 *)
Hypothesis HQ1 : ode (Some Q) = Some Q1.
Hypothesis HQ2 : ode (Some Q1) = Some Q2.
Hypothesis HP : prim_ok prim Q1.

(** the constitutive functions give numbers on the relaxed state *)
Definition valid_at (ndim : nat) : Prop := HALF = true -> forall q, uniform q Q1 (N o ^ ndim) -> valid q = true.

Lemma mid_uniform ndim : ndim = 1 \/ ndim = 2 -> valid_at ndim ->
  exists q, (if HALF then midf ndim (repeat (Some Q1) (N o ^ ndim)) else Ok (view (repeat (Some Q1) (N o ^ ndim)))) = Ok (Some q) /\ uniform q Q1 (N o ^ ndim).
Proof using HR HN HB.
  intros Hn HS. destruct (view_uniform Q1 (N o ^ ndim)) as [wv [Ev Hw]]. assert (U : uniform wv Q1 (N o ^ ndim)) by (intros s Hs k; now rewrite Hw).
  destruct HR as [HV _]. destruct (tables o nodes bs w HN HB) as [_ [TD _]]. pose proof (N_pos o nodes bs w HN HB) as N1.
  unfold valid_at in HS. destruct HALF; [|exists wv; rewrite Ev; auto]. unfold mid. rewrite Ev, (HS eq_refl wv U).
  destruct Hn as [-> | ->].
  - rewrite Nat.pow_1_r in *. unfold mid1.
    match goal with |- context [rows ?m ?f] => destruct (rows_ok m f (fun _ => Q1)) as [r [E F]] end.
    + intros a Ha. cbv zeta. rewrite (Bdot_ok o HV) by lia. cbn [bind]. f_equal. apply functional_extensionality. intros k. rewrite (Hw a Ha), (bdot_0 o) by (try lia; intros i; unfold derivs1d; rewrite (rsum_ext _ _ (fun s => Dv bs nodes a s * Q1 i)%R) by (intros s Hs; rewrite (Hw s Hs); reflexivity); rewrite rsum_scal_r, TD by exact Ha; ring).
      unfold derivs1d. rewrite (rsum_ext _ _ (fun s => Dv bs nodes a s * flux o ph (fun _ => 0%R) Q1 0 k)%R) by (intros s Hs; rewrite (Hw s Hs); reflexivity). rewrite rsum_scal_r, TD by exact Ha. unfold Rdiv. ring.
    + exists r. rewrite E. split; [reflexivity|]. intros s Hs k. now rewrite F.
  - replace (N o ^ 2) with (N o * N o) in * by (cbn; lia). unfold mid2.
    match goal with |- context [rows ?m ?f] => destruct (rows_ok m f (fun _ => Q1)) as [r [E F]] end.
    + intros s Hs. cbv zeta. rewrite !(Bdot_ok o HV) by lia. cbn [bind]. f_equal. apply functional_extensionality. intros k.
      assert (Ha : s / N o < N o) by (apply Nat.div_lt_upper_bound; lia). pose proof (Nat.mod_upper_bound s (N o) ltac:(lia)) as Hb.
      assert (Z : forall (g : vec -> vec) d i, derivs2d o (Dv bs nodes) (fun s => g (wv s)) d s i = 0%R).
      { intros g d i. unfold derivs2d. destruct d; [rewrite (rsum_ext _ _ (fun j => Dv bs nodes (s / N o) j * g Q1 i)%R)|rewrite (rsum_ext _ _ (fun j => Dv bs nodes (s mod N o) j * g Q1 i)%R)];
          try (intros j Hj; rewrite Hw by (apply pack_bound; assumption); reflexivity); rewrite rsum_scal_r, TD by assumption; ring. }
      rewrite (Hw s Hs), !(bdot_0 o) by (try lia; intros i; apply (Z (fun v => v))). rewrite (Z (fun v => flux o ph (fun _ => 0%R) v 0)), (Z (fun v => flux o ph (fun _ => 0%R) v 1)). unfold Rdiv. ring.
    + exists r. rewrite E. split; [reflexivity|]. intros s Hs k. now rewrite F.
Qed.

Lemma midst_uniform ndim m wh mask : ndim = 1 \/ ndim = 2 -> valid_at ndim -> reads (m * N o ^ ndim) wh Q1 -> blen mask = m -> (forall i, i < m -> exists b, rd mask i = Ok b) ->
  exists rec q, midstepper (option nodal) view midf HALF ndim (N o ^ ndim) (balloc m) wh mask = Ok rec /\ blen rec = m /\
    (forall i, uniform (q i) Q1 (N o ^ ndim)) /\ forall i, i < m -> bdat rec i = Some (Some (q i)).
Proof using HR HN HB.
  intros Hn HS Hr Lm Hm. pose proof (N_pos o nodes bs w HN HB) as N1. destruct (mid_uniform ndim Hn HS) as [q [E U]]. destruct (view_uniform Q1 (N o ^ ndim)) as [q0 [E0 U0]].
  set (qq := fun i => match rd mask i with Ok true => q | _ => q0 end).
  destruct (midstepper_ok (N o) N1 (option nodal) view midf HALF ndim (N o ^ ndim) (balloc m) wh mask (fun i => Some (qq i))) as [rec [Er [Lr Vr]]].
  - cbn [balloc blen]. lia.
  - intros i Hi. unfold mcell, qq. destruct (Hm i ltac:(lia)) as [b Eb]. rewrite Eb. cbn [bind].
    rewrite (gather_reads o nodes Q1 HN wh (m * N o ^ ndim)); [|exact Hr|rewrite Lm in Hi; nia]. cbn [bind]. destruct b; cbn [andb]; [exact E|now rewrite E0].
  - exists rec, qq. split; [exact Er|]. split; [exact Lr|]. split; [|intros i Hi; apply Vr; lia].
    intros i. unfold qq. destruct (rd mask i) as [[]| | |]; try exact U; intros s Hs k; now rewrite U0.
Qed.

Lemma relax_num (e : num -> num) m u A B : holds m u (fun _ => A) -> e (Some A) = Some B -> exists u', fold_res do_update (relax num e m) u = Ok u' /\ holds m u' (fun _ => B).
Proof using.
  intros [L H] E. destruct (relax_ok num e m u (fun _ => Some A) L H) as [u' [F [L' V]]]. exists u'. split; [exact F|]. split; [exact L'|]. intros c Hc. now rewrite V, E.
Qed.

(** A uniform field is relaxed twice and otherwise left alone. *)
Theorem split_uniform_1d nx bt u ub0 mask :
  N o <= nx -> keeps_state wallf Q 1 bt -> valid_at 1 -> holds nx u (fun _ => Q) -> full_mask [nx] mask -> blen ub0 = extended_dimensions [nx] (N o) ->
  exists ub u', boundaries num (N o) wallf u ub0 [nx] bt = Ok ub /\ split u ub mask [nx] = Ok u' /\ holds nx u' (fun _ => Q2).
Proof using HR HN HB HW HP HQ1 HQ2.
  intros Nn HK HS Hu Hfull Lb. pose proof HR as [HV [HF [D0 D1]]]. pose proof (N_pos o nodes bs w HN HB) as N1. pose proof Hu as [Lu Du].
  destruct (full_mask_1 (nx := nx) ltac:(lia) Hfull) as [Lm Hm].
  destruct (boundaries_1d_correct num (N o) wallf u ub0 nx bt (fun _ => Some Q) Nn ltac:(lia) ltac:(intros k Hk; apply HK; lia) Lu Du Lb) as [ub [Eb [Lub Wub]]].
  exists ub. assert (FU : full_of (nx + 2 * length nodes) (bmap ode ub) Q1).
  { apply (full_bmap _ _ _ Q); [|exact HQ1]. split; [rewrite HN; exact Lub|]. rewrite HN. intros a Ha. rewrite Wub by exact Ha. f_equal. apply extend1_const; [reflexivity|apply (HK 0); lia|apply (HK 1); lia]. }
  destruct (weno_prim_uniform_1d nodes bs inv SIG LAMS LAMC EPS HW prim (NO_CORNERS o) nx (balloc ((nx + 2) * length nodes)) (bmap ode ub) Q1 HP eq_refl FU) as [wh [Ewh Rw]].
  rewrite HN in Ewh, Rw.
  destruct (midst_uniform 1 (nx + 2) wh mask (or_introl eq_refl) HS) as [rec [q [Er [Lr [Uq Vr]]]]]; [rewrite Nat.pow_1_r; exact Rw|exact Lm|intros i Hi; exists true; apply rd_ok; [lia|apply Hm, Hi]|].
  destruct (relax_num ode nx u Q Q1 Hu HQ1) as [u4 [E4 H4]].
  destruct (tables o nodes bs w HN HB) as [_ [TD [_ TE]]].
  assert (H1 : holds1 o false nx (flat Q1 nx) (strip rec) mask (fun _ => Q1) (fun i _ => q i) (fun _ => true)).
  { split; [reflexivity|]. split; [intros c Hc; apply flat_ok, Hc|]. split.
    - intros i t Hi Ht. cbn [nt_of] in *. assert (t = 0) as -> by lia. rewrite Nat.mul_1_r, Nat.add_0_r. apply rd_ok; cbn [strip blen bdat]; [rewrite Lr; exact Hi|]. rewrite Vr by exact Hi. reflexivity.
    - intros i Hi. apply rd_ok; [lia|apply Hm; lia]. }
  destruct (fv_uniform_1d o ph (fun k => nth k nodes 0%R) w (end_values bs) (Dv bs nodes) false false FLUX dt dX nx (flat Q1 nx) (strip rec) mask (fun _ => Q1)
     (fun i _ => q i) (fun _ => true) (fun _ => Q1) HR (conj TE TD) H1) as [u2 [x2 [E2 [V2 X2]]]].
  { intros i t s Hs k. apply Uq. rewrite Nat.pow_1_r. exact Hs. }
  { intros t k. unfold src. reflexivity. }
  destruct (fv_launcher_1d o ph (fun k => nth k nodes 0%R) w (end_values bs) (Dv bs nodes) false false FLUX dt dX nx (flat Q1 nx) (strip rec) mask _ _ _ HR H1) as [u2' [_ [E2' [L2 _]]]].
  rewrite E2 in E2'. injection E2' as <-.
  destruct (fv_is_split o ph (fun k => nth k nodes 0%R) w (end_values bs) (Dv bs nodes) FLUX dt dX HF valid SIG LAMS LAMC EPS inv prim ode HALF
     (flat Q1 nx) u4 ub mask [nx] u2 wh rec q u (or_introl eq_refl)) as [w5 [U5 F5]].
  - cbn [length]. rewrite Nat.pow_1_r. replace (extended_dimensions [nx] 1) with (nx + 2) by (cbn; lia). exact Ewh.
  - cbn [length]. replace (extended_dimensions [nx] 1) with (nx + 2) by (cbn; lia). exact Er.
  - intros a Ha. apply Vr. lia.
  - rewrite Lu. exact E4.
  - apply flat_u. exact H4.
  - exact E2.
  - assert (H5 : holds nx w5 (fun _ => Q1)).
    { destruct U5 as [RL RV]. split; [congruence|]. intros c Hc. destruct (RV c (x2 c) (V2 c Hc)) as [y [Ey ->]]. rewrite Ey. do 2 f_equal. apply functional_extensionality. intros k. apply (X2 c Hc eq_refl). }
    destruct (relax_num ode nx w5 Q1 Q2 H5 HQ2) as [w6 [E6 H6]]. exists w6. split; [exact Eb|]. split; [|exact H6]. apply F5. rewrite Lu. exact E6.
Qed.

Theorem split_uniform_2d nx ny bt u ub0 mask :
  N o <= nx -> N o <= ny -> (NO_CORNERS o = true -> enough (N o) (nx + 2) (N o)) -> keeps_state wallf Q 2 bt -> valid_at 2 ->
  holds (nx * ny) u (fun _ => Q) -> full_mask [nx; ny] mask -> blen ub0 = extended_dimensions [nx; ny] (N o) ->
  exists ub u', boundaries num (N o) wallf u ub0 [nx; ny] bt = Ok ub /\ split u ub mask [nx; ny] = Ok u' /\ holds (nx * ny) u' (fun _ => Q2).
Proof using HR HN HB HW HP HQ1 HQ2.
  intros Nn Ny HE HK HS Hu Hfull Lb. pose proof HR as [HV [HF [D0 D1]]]. pose proof (N_pos o nodes bs w HN HB) as N1. pose proof Hu as [Lu Du].
  pose proof (full_mask_2 (nx := nx) (ny := ny) ltac:(lia) ltac:(lia) Hfull) as FM. pose proof FM as [Lm Hm].
  destruct (boundaries_2d_correct num (N o) wallf u ub0 nx ny bt (fun _ _ => Some Q) Nn ltac:(lia) Ny ltac:(lia) ltac:(intros k Hk; apply HK; lia) Lu) as [ub [Eb [Lub Wub]]];
    [intros i j Hi Hj; apply Du, pack_bound; assumption|exact Lb|].
  exists ub. assert (FU : full_of ((nx + 2 * length nodes) * (ny + 2 * length nodes)) (bmap ode ub) Q1).
  { apply (full_bmap _ _ _ Q); [|exact HQ1]. rewrite HN. split; [exact Lub|]. intros a Ha. rewrite (Nat.div_mod_eq a (ny + 2 * N o)), (Nat.mul_comm (ny + 2 * N o)). rewrite Wub; [|apply Nat.div_lt_upper_bound; lia|apply Nat.mod_upper_bound; lia].
    f_equal. unfold extend2. apply extend1_const; [|apply (HK 2); lia|apply (HK 3); lia]. intros y. apply extend1_const; [reflexivity|apply (HK 0); lia|apply (HK 1); lia]. }
  destruct (weno_prim_uniform_2d nodes bs inv SIG LAMS LAMC EPS HW prim (NO_CORNERS o) nx ny (balloc ((nx + 2) * (ny + 2) * length nodes * length nodes)) (bmap ode ub) Q1 HP ltac:(rewrite HN; exact HE) eq_refl FU) as [wh [Ewh Rw]].
  rewrite HN in Ewh, Rw. rewrite <- Nat.mul_assoc in Ewh, Rw. replace (N o * N o) with (N o ^ 2) in Ewh, Rw by (cbn; lia).
  destruct (midst_uniform 2 ((nx + 2) * (ny + 2)) wh mask (or_intror eq_refl) HS Rw Lm (full2_init FM)) as [rec [q [Er [Lr [Uq Vr]]]]].
  destruct (relax_num ode (nx * ny) u Q Q1 Hu HQ1) as [u4 [E4 H4]].
  assert (DX : extended_dimensions [nx; ny] 1 = (nx + 2) * (ny + 2)) by (unfold extended_dimensions; cbn; lia).
  destruct (tables o nodes bs w HN HB) as [_ [TD [_ TE]]].
  assert (H1 : holds2 o false nx ny (flat Q1 (nx * ny)) (strip rec) mask (fun _ _ => Q1) (fun i j _ => q (i * (ny + 2) + j)) (off_corner nx ny)).
  { split; [reflexivity|]. split; [intros a b Ha Hb; apply flat_ok, pack_bound; assumption|]. split.
    - intros i j t Hi Hj Ht. cbn [nt_of] in *. assert (t = 0) as -> by lia. rewrite Nat.mul_1_r, Nat.add_0_r. assert (B : i * (ny + 2) + j < (nx + 2) * (ny + 2)) by (apply pack_bound; assumption).
      apply rd_ok; cbn [strip blen bdat]; [rewrite Lr; exact B|]. rewrite Vr by exact B. reflexivity.
    - intros i j Hi Hj. apply (full2_rd FM); assumption. }
  destruct (fv_uniform_2d o ph (fun k => nth k nodes 0%R) w (end_values bs) (Dv bs nodes) false false FLUX dt dX nx ny (flat Q1 (nx * ny)) (strip rec) mask (fun _ _ => Q1)
     _ _ (fun _ => Q1) HR (conj TE TD) H1) as [u2 [x2 [E2 [V2 X2]]]].
  { intros i j t _ s Hs k. apply Uq. replace (N o ^ 2) with (N o * N o) by (cbn; lia). exact Hs. }
  { intros t k. unfold src. reflexivity. }
  destruct (fv_launcher_2d o ph (fun k => nth k nodes 0%R) w (end_values bs) (Dv bs nodes) false false FLUX dt dX nx ny (flat Q1 (nx * ny)) (strip rec) mask _ _ _ HR H1) as [u2' [_ [E2' [L2 _]]]].
  rewrite E2 in E2'. injection E2' as <-.
  destruct (fv_is_split o ph (fun k => nth k nodes 0%R) w (end_values bs) (Dv bs nodes) FLUX dt dX HF valid SIG LAMS LAMC EPS inv prim ode HALF
     (flat Q1 (nx * ny)) u4 ub mask [nx; ny] u2 wh rec q u (or_intror eq_refl)) as [w5 [U5 F5]].
  - cbn [length]. rewrite DX. exact Ewh.
  - cbn [length]. rewrite DX. exact Er.
  - intros a Ha. apply Vr. lia.
  - rewrite Lu. exact E4.
  - apply flat_u. exact H4.
  - exact E2.
  - assert (H5 : holds (nx * ny) w5 (fun _ => Q1)).
    { destruct U5 as [RL RV]. split; [congruence|]. intros c Hc. assert (Y0 : ny <> 0) by lia.
      assert (Ha : c / ny < nx) by (apply Nat.div_lt_upper_bound; lia). pose proof (Nat.mod_upper_bound c ny Y0) as Hb.
      destruct (RV c (x2 (c / ny) (c mod ny))) as [y [Ey ->]].
      - rewrite (Nat.div_mod_eq c ny) at 1. rewrite (Nat.mul_comm ny). apply V2; assumption.
      - rewrite Ey. do 2 f_equal. apply functional_extensionality. intros k. apply (X2 _ _ Ha Hb); [rewrite !off_y by lia; reflexivity|rewrite !off_x by lia; reflexivity]. }
    destruct (relax_num ode (nx * ny) w5 Q1 Q2 H5 HQ2) as [w6 [E6 H6]]. exists w6. split; [exact Eb|]. split; [|exact H6]. apply F5. rewrite Lu. exact E6.
Qed.
End Uniform.
Print Assumptions split_uniform_1d.
Print Assumptions split_uniform_2d.
