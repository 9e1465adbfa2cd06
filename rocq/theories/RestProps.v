(** C99: a fluid at rest under a uniform pressure stays at rest under that pressure, however its density varies. *)
From Coq Require Import Reals Lia Lra ZArith FunctionalExtensionality.
From Verif Require Import Base Options Sum Mat3 EqModel EqSpec FvModel FvBody FvSpec FvProof FvProps PolyModel WenoModel WenoSpec WenoProof WenoProps DgModel DgSpec DgProof2 DgProps GridModel GridSpec GridProof GridProps StepperModel AderModel AderProof3 AderProof4
  AderProps Ader2Props Ader3Props HomogModel SplitProps PhysModel RelaxModel UtilsModel UtilsProof UtilsProps IterModel IterSpec IterProof2 IterProps Split3Props SafeProof RunModel RunProof RunProof2 RunProps RunProof3 RunProof4 Run2Props
  MRunModel MRunProof RefSpec RefProof RefProof2 RefProof3 RefProof4 RefProof5 RefProps MirrorProof4 MirrorProof5 FlatProof FlatProof2 FlatProof3 RestSpec RestProof RestProof2 RestProof3 RestProof4 RestProof5.
From Verif Require MRunProps CornerProof3 StiffProps PhysInst PhysProps MirrorProps FlatProps.
Import List ListNotations.
Open Scope nat_scope.

Lemma Forall2_nth_intro {A B} (da : A) (db : B) (Q : A -> B -> Prop) : forall l l', length l = length l' -> (forall c, c < length l -> Q (nth c l da) (nth c l' db)) -> Forall2 Q l l'.
Proof.
  induction l as [|a l IH]; intros [|b l'] L H; try discriminate L; constructor; [apply (H 0); cbn; lia|]. apply IH; [cbn in L; lia|]. intros c Hc. apply (H (S c)). cbn. lia.
Qed.

Section Step.
Variable o : options.
Variables (nodes : list R) (bs : list poly) (WGHTS : nat -> R).
Variables (SIG : nat -> nat -> R) (LAMS LAMC EPS : R) (inv : stencil -> (nat -> R) -> nat -> R).
Variable wallf : nat -> nat -> num -> num.
Variable ph : matpar -> phys.
Variable prim : matpar -> option ((num -> num) * (num -> num)).
Variable Phi : matpar -> R -> nat -> list num -> res (option (nat -> option nodal)).
Variable valid : matpar -> nodal -> bool.
Variable ode : matpar -> R -> num -> num.
Variables (SPLIT HALF_STEP : bool) (FLUX : nat).
Variables (nX : list nat) (bt : nat -> nat) (dX : list R) (team : matpar -> grid -> list bool -> R -> nat * list nat).
Notation cells := (fold_right Nat.mul 1 nX).
Notation NODES := (fun i => nth i nodes 0%R).
Notation ENDVALS := (end_values bs).
Notation DERVALS := (Dv bs nodes).
Notation conf := (configured o Phi SPLIT FLUX nX bt dX team).
Notation fin := (finishing o NODES WGHTS ENDVALS DERVALS SIG LAMS LAMC EPS inv wallf ph prim Phi valid ode SPLIT HALF_STEP FLUX nX bt dX team).
Notation ready m := (ready o SIG LAMS LAMC EPS inv wallf prim nX bt m nodes bs).
Notation met := (met o NODES WGHTS ENDVALS DERVALS SIG LAMS LAMC EPS inv wallf ph prim Phi valid ode SPLIT HALF_STEP FLUX nX bt dX).
Notation advance := (run_advance o NODES WGHTS ENDVALS DERVALS SIG LAMS LAMC EPS inv wallf ph prim Phi valid ode SPLIT HALF_STEP FLUX nX bt dX team).
Notation stepped := (stepped o NODES WGHTS ENDVALS DERVALS SIG LAMS LAMC EPS inv wallf ph prim Phi ode SPLIT HALF_STEP FLUX nX bt dX).
Hypothesis HB : dg_basis nodes bs WGHTS.

(** the densities that are met: any set that leaves out 0 *)
Variable range : R -> Prop.
Hypothesis HD : forall r, range r -> r <> 0%R.

(** the reconstructed density is in that set at the nodes and at the faces *)
Definition solid (g : grid) : Prop :=
  match nX with
  | [nx] => solid1 range o ENDVALS SIG LAMS LAMC EPS inv wallf bt nx (fun c => nth c g (fun _ => 0%R))
  | [nx; ny] => solid2 range o ENDVALS SIG LAMS LAMC EPS inv wallf bt nx ny (fun a b => nth (a * ny + b) g (fun _ => 0%R))
  | _ => False
  end.
(** What is asked of the set-up: viscous, no heat conduction, the states with energy E0 per volume are in equilibrium, reconstruction of the conserved variables; walls, if any, keep
    a state at rest, and so do the predictor of the unsplit solver and the relaxation of the split one. Nothing is asked of them at states that are not at rest. *)
Record equilibrium (m : matpar) (E0 p0 : R) : Prop := {
  eq_viscous : VISCOUS o = true;
  eq_cold : THERMAL o = false;
  eq_rests : rests range (ph m) E0 p0;
  eq_prim : prim m = None;
  eq_walls : calm_walls E0 wallf bt (length nX);
  eq_pred : SPLIT = false -> forall dt q, calm range E0 (N o ^ length nX) q -> exists f, Phi m dt (length nX) (map (fun s => Some (q s)) (seq 0 (N o ^ length nX))) = Ok (Some f) /\
    forall t, t < N o -> exists b, f t = Some b /\ alike (N o ^ length nX) b q;
  eq_ode : SPLIT = true -> forall h q, resting E0 q -> exists v, ode m h (Some q) = Some v /\ resting E0 v /\ v 0 = q 0;
  eq_half : SPLIT = true -> HALF_STEP = true -> forall q, calm range E0 (N o ^ length nX) q -> valid m q = true }.
(** Of the fluxes of Roe and Osher: the absolute value of a matrix gives 0 where the matrix does, the Jacobian gives 0 on differences of states at rest, and the nodes of the path between two
    densities are densities. *)
Record sharp (m : matpar) (E0 : R) : Prop := {
  sh_flux : FLUX = 1 \/ FLUX = 2;
  sh_kernel : kills_kernel range o (ph m) E0;
  sh_jacobian : still_jacobian range o (ph m) E0;
  sh_path : between_range range (N o) NODES }.

Lemma calm_alike E0 n q r : calm range E0 n q -> alike n r q -> calm range E0 n r.
Proof using. clear. intros H A s Hs. rewrite A by exact Hs. apply H, Hs. Qed.
Lemma ode_calm m E0 p0 h q : equilibrium m E0 p0 -> SPLIT = true -> resting E0 q -> resting E0 (at_numbers (ode m h) q) /\ at_numbers (ode m h) q 0 = q 0.
Proof using. clear HB HD. intros HQ HS Hq. destruct (eq_ode m E0 p0 HQ HS h q Hq) as (v & E & V). unfold at_numbers. rewrite E. exact V. Qed.
Lemma relaxed_rests m E0 p0 h q : equilibrium m E0 p0 -> resting E0 q -> settled E0 q (relaxed (ode m h) SPLIT q).
Proof using. clear HB HD. intros HQ Hq _. unfold relaxed. destruct SPLIT eqn:ES; [|split; [exact Hq|reflexivity]]. apply (ode_calm m E0 p0 h q HQ ES Hq). Qed.
Lemma pred_calm m E0 p0 dt : equilibrium m E0 p0 -> SPLIT = false -> still_predict range o (Phi m dt) E0 (length nX).
Proof using.
  clear HB HD. intros HQ HS q t C Ht. destruct (eq_pred m E0 p0 HQ HS dt q C) as (f & E & F). destruct (F t Ht) as (b & E1 & A). unfold predicted. rewrite E, E1. exact A.
Qed.
(** a step changes every cell, but for the relaxation, by a vector of T, if the flux differs by such vectors from the one at rest *)
Lemma step_changes (T : vec -> Prop) m E0 p0 (g : grid) dt : (forall x y : vec, (forall k, x k = y k) -> T x -> T y) -> T (fun _ => 0%R) -> (forall (x y : vec) c d, T x -> T y -> T (fun k => c * x k + d * y k)%R) ->
  (forall x, T x -> resting 0 x) ->
  conf -> fin -> ready m -> (length nX = 2 -> NO_CORNERS o = false) -> equilibrium m E0 p0 -> mild range o (ph m) E0 p0 NODES WGHTS T FLUX -> length g = cells -> Forall (resting E0) g -> solid g ->
  exists h, advance m g (repeat true cells) dt = Ok h /\ length h = cells /\ met m g (repeat true cells) dt /\
    forall c, c < cells -> exists w, nth c h (fun _ => 0%R) = relaxed (ode m (dt / 2)%R) SPLIT w /\ T (fun k => w k - relaxed (ode m (dt / 2)%R) SPLIT (nth c g (fun _ => 0%R)) k)%R.
Proof using HB HD.
  intros TX TZ TL TR HC HF HNu HNC HQ HM Lg Hg HS. pose proof HNu as (Ln & HW & _). pose proof (N_pos o nodes bs WGHTS Ln HB) as N1. destruct (AderProof4.tables o nodes bs WGHTS Ln HB) as (_ & TD & _ & TE).
  exists (stepped m g (repeat true cells) dt).
  assert (L1 : length (stepped m g (repeat true cells) dt) = cells) by (rewrite stepped_length with (team := team) by exact HC; reflexivity).
  assert (G : forall i, i < cells -> resting E0 (nth i g (fun _ => 0%R))) by (intros i Hi; apply (proj1 (Forall_nth (resting E0) g) Hg); lia).
  pose proof (pred_calm m E0 p0 dt HQ) as PC. pose proof (fun S1 q => ode_calm m E0 p0 (dt / 2)%R q HQ S1) as OC. pose proof (fun q => relaxed_rests m E0 p0 (dt / 2)%R q HQ) as RC. pose proof HQ as [HV HT HR HP HWa HPr HO HHalf].
  assert (ON : SPLIT = true -> forall q, resting E0 q -> exists v, ode m (dt / 2)%R (Some q) = Some v) by (intros S1 q Hq; destruct (HO S1 (dt / 2)%R q Hq) as (v & E & _); eauto).
  assert (RW : forall x w, resting E0 x -> T (fun k => w k - relaxed (ode m (dt / 2)%R) SPLIT x k)%R -> resting E0 w).
  { intros x w Hx Tw. destruct (RC x Hx Hx) as [G1 _]. apply (resting_ext _ (fun k => relaxed (ode m (dt / 2)%R) SPLIT x k + (w k - relaxed (ode m (dt / 2)%R) SPLIT x k))%R); [intros; ring|]. apply resting_plus; [exact G1|apply TR, Tw]. }
  pose proof HC as [_ HGD _ _ _].
  enough (X : met m g (repeat true cells) dt /\ forall c, c < cells -> exists w, nth c (stepped m g (repeat true cells) dt) (fun _ => 0%R) = relaxed (ode m (dt / 2)%R) SPLIT w /\
     T (fun k => w k - relaxed (ode m (dt / 2)%R) SPLIT (nth c g (fun _ => 0%R)) k)%R).
  { destruct X as [X1 X2]. split; [|split; [exact L1|split; [exact X1|exact X2]]]. apply step_computes_met with (nodes := nodes) (bs := bs); rewrite ?repeat_length; try assumption; auto. }
  clear L1. unfold RefProps.met, RefProps.stepped, solid in *. destruct HGD as [(nx & EnX & Hx)|(nx & ny & EnX & Hx & Hy)]; rewrite EnX in *; cbn [length fold_right nth] in *; rewrite Nat.mul_1_r in *; rewrite HP.
  - destruct (new1_changes range HD T TX TZ TL o nodes bs NODES WGHTS ENDVALS DERVALS SIG LAMS LAMC EPS inv wallf (ph m) (Phi m dt) (ode m (dt / 2)%R) SPLIT HALF_STEP FLUX bt dt E0 p0 Ln HW HV HT HR HM TD TE OC
      nx (nth 0 dX 1%R) (fun c => nth c g (fun _ => 0%R)) (fun c => nth c (repeat true nx) false)) as (C1 & C2 & C3); try assumption; try lia.
    { intros i Hi. rewrite nth_true. apply Nat.ltb_lt, Hi. }
    { intros k Hk B. destruct (HWa k Hk B) as [A X]. split; [exact A|]. intros q Hq. apply X, Hq. }
    split.
    + unfold met1. destruct SPLIT.
      * split; [intros z Hz; apply (ON eq_refl), C1, Hz|]. split; [intros c Hc; apply (ON eq_refl), G, Hc|]. split.
        -- intros c Hc. apply (ON eq_refl). apply (RW (nth c g (fun _ => 0%R))); [apply G, Hc|]. apply C3, Hc.
        -- intros HH z q Hz _ A. apply (HHalf eq_refl HH). rewrite Nat.pow_1_r. apply (calm_alike E0 _ _ _ (C2 z Hz)). exact A.
      * intros z Hz _. destruct (HPr eq_refl dt (block1 (N o) SIG LAMS LAMC EPS inv None (extended1 wallf bt nx (fun c => nth c g (fun _ => 0%R))) z)) as (f & E & F); [rewrite Nat.pow_1_r; apply (C2 z Hz)|].
        exists f. split; [exact E|]. intros t Ht. destruct (F t Ht) as (b & E1 & _). eauto.
    + intros c Hc. rewrite !nth_map_seq by assumption. eexists. split; [reflexivity|]. apply C3, Hc.
  - destruct (new2_changes range HD T TX TZ TL o nodes bs NODES WGHTS ENDVALS DERVALS SIG LAMS LAMC EPS inv wallf (ph m) (Phi m dt) (ode m (dt / 2)%R) SPLIT HALF_STEP FLUX bt dt E0 p0 Ln HW HV HT HR HM TD TE OC
      nx ny (nth 0 dX 1%R) (nth 1 dX 1%R) (fun a b => nth (a * ny + b) g (fun _ => 0%R)) (fun a b => nth (a * ny + b) (repeat true (nx * ny)) false)) as (C1 & C2 & C3); try assumption; try lia.
    { intros i j Hi Hj. rewrite nth_true. apply Nat.ltb_lt. nia. }
    { intros k Hk B. destruct (HWa k Hk B) as [A X]. split; [exact A|]. intros q Hq. apply X, Hq. }
    { intros a b Ha Hb. apply G. nia. }
    split.
    + unfold met2. destruct SPLIT.
      * split; [intros z y Hz Hyy; apply (ON eq_refl), C1; assumption|]. split; [intros a b Ha Hb; apply (ON eq_refl), G; nia|]. split.
        -- intros a b Ha Hb. apply (ON eq_refl). apply (RW (nth (a * ny + b) g (fun _ => 0%R))); [apply G; nia|]. apply C3; assumption.
        -- intros HH z y q Hz Hyy _ A. apply (HHalf eq_refl HH). apply (calm_alike E0 _ _ _ (C2 z y Hz Hyy)). exact A.
      * intros z y Hz Hyy _. destruct (HPr eq_refl dt (block2 (N o) SIG LAMS LAMC EPS inv None (extended2 wallf bt nx ny (fun a b => nth (a * ny + b) g (fun _ => 0%R))) z y)) as (f & E & F); [apply (C2 z y Hz Hyy)|].
        exists f. split; [exact E|]. intros t Ht. destruct (F t Ht) as (b & E1 & _). eauto.
    + intros c Hc. assert (A : c / ny < nx) by (apply Nat.div_lt_upper_bound; lia). pose proof (Nat.mod_upper_bound c ny ltac:(lia)) as B.
      rewrite !nth_map_seq by assumption. eexists. split; [reflexivity|].
      replace (nth c g (fun _ => 0%R)) with (nth (c / ny * ny + c mod ny) g (fun _ => 0%R)) by (f_equal; rewrite Nat.mul_comm; symmetry; apply Nat.div_mod; lia). apply C3; assumption.
Qed.

(** C99. With Rusanov's flux, a step from rest ends at rest, with the same energy per volume everywhere. *)
Theorem step_rests m E0 p0 (g : grid) dt : FLUX = 0 -> conf -> fin -> ready m -> (length nX = 2 -> NO_CORNERS o = false) -> equilibrium m E0 p0 -> length g = cells -> Forall (resting E0) g -> solid g ->
  exists h, advance m g (repeat true cells) dt = Ok h /\ length h = cells /\ Forall (resting E0) h.
Proof using HB HD.
  intros HFl HC HF HNu HNC HQ Lg Hg HS. pose proof HQ as [HV HT HR _ _ _ _ _].
  destruct (step_changes (resting 0) m E0 p0 g dt) as (h & E & L & _ & X); try assumption.
  - intros x y Hxy. apply resting_ext. intros k _. apply Hxy.
  - exact resting_0.
  - intros x y c d Hx Hy. exact (resting_plus 0 _ _ (resting_scal _ c Hx) (resting_scal _ d Hy)).
  - auto.
  - subst FLUX. apply rusanov_mild; assumption.
  - exists h. split; [exact E|]. split; [exact L|]. apply Forall_nth. intros c dflt Hc. rewrite L in Hc. rewrite (nth_indep _ dflt (fun _ => 0%R)) by lia.
    destruct (X c Hc) as (w & -> & Tw). assert (G : resting E0 (nth c g (fun _ => 0%R))) by (apply (proj1 (Forall_nth (resting E0) g) Hg); lia).
    destruct (relaxed_rests m E0 p0 (dt / 2)%R _ HQ G G) as [G1 _].
    assert (W : resting E0 w).
    { apply (resting_ext _ (fun k => relaxed (ode m (dt / 2)%R) SPLIT (nth c g (fun _ => 0%R)) k + (w k - relaxed (ode m (dt / 2)%R) SPLIT (nth c g (fun _ => 0%R)) k))%R); [intros; ring|].
      apply resting_plus; assumption. }
    apply (relaxed_rests m E0 p0 (dt / 2)%R _ HQ W W).
Qed.
(** With the flux of Roe or Osher, the density of every cell is kept as well, *)
Theorem step_sharp m E0 p0 (g : grid) dt : sharp m E0 -> conf -> fin -> ready m -> (length nX = 2 -> NO_CORNERS o = false) -> equilibrium m E0 p0 -> length g = cells -> Forall (resting E0) g -> solid g ->
  exists h, advance m g (repeat true cells) dt = Ok h /\ Forall (resting E0) h /\ Forall2 (fun q q' => q' 0 = q 0) g h.
Proof using HB HD.
  intros [HFl HK HJ HPa] HC HF HNu HNC HQ Lg Hg HS. pose proof HQ as [HV HT HR _ _ _ _ _].
  destruct (step_changes (fun x => forall k, x k = 0%R) m E0 p0 g dt) as (h & E & L & _ & X); try assumption.
  - intros x y Hxy Hx k. rewrite <- Hxy. apply Hx.
  - reflexivity.
  - intros x y c d Hx Hy k. rewrite Hx, Hy. ring.
  - intros x Hx. apply (resting_ext 0 (fun _ => 0%R)); [intros; symmetry; apply Hx|exact resting_0].
  - apply exact_mild; assumption.
  - assert (Y : forall c, c < cells -> resting E0 (nth c g (fun _ => 0%R)) /\ resting E0 (nth c h (fun _ => 0%R)) /\ nth c h (fun _ => 0%R) 0 = nth c g (fun _ => 0%R) 0).
    { intros c Hc. destruct (X c Hc) as (w & -> & Tw). assert (G : resting E0 (nth c g (fun _ => 0%R))) by (apply (proj1 (Forall_nth (resting E0) g) Hg); lia).
      assert (W : w = relaxed (ode m (dt / 2)%R) SPLIT (nth c g (fun _ => 0%R))) by (apply functional_extensionality; intros k; specialize (Tw k); cbv beta in Tw; lra).
      destruct (relaxed_rests m E0 p0 (dt / 2)%R _ HQ G G) as [G1 G2]. rewrite W. destruct (relaxed_rests m E0 p0 (dt / 2)%R _ HQ G1 G1) as [G3 G4]. split; [exact G|]. split; [exact G3|]. rewrite G4. exact G2. }
    exists h. split; [exact E|]. split.
    + apply Forall_nth. intros c dflt Hc. rewrite L in Hc. rewrite (nth_indep _ dflt (fun _ => 0%R)) by lia. apply Y, Hc.
    + apply (Forall2_nth_intro (A := vec) (B := vec) (fun _ => 0%R) (fun _ => 0%R)); [congruence|]. intros c Hc. apply Y. rewrite <- Lg. exact Hc.
Qed.
(** Whatever the relaxation, the half step or the predictor does elsewhere, in such a step they give numbers. *)
Theorem step_met m E0 p0 (g : grid) dt : FLUX = 0 \/ sharp m E0 -> conf -> fin -> ready m -> (length nX = 2 -> NO_CORNERS o = false) -> equilibrium m E0 p0 -> length g = cells -> Forall (resting E0) g -> solid g ->
  met m g (repeat true cells) dt.
Proof using HB HD.
  intros HFl HC HF HNu HNC HQ Lg Hg HS. pose proof HQ as [HV HT HR _ _ _ _ _]. destruct HFl as [HFl|[HFl HK HJ HPa]].
  - destruct (step_changes (resting 0) m E0 p0 g dt) as (h & E & L & X & _); try assumption.
    + intros x y Hxy. apply resting_ext. intros k _. apply Hxy.
    + exact resting_0.
    + intros x y c d Hx Hy. exact (resting_plus 0 _ _ (resting_scal _ c Hx) (resting_scal _ d Hy)).
    + auto.
    + subst FLUX. apply rusanov_mild; assumption.
  - destruct (step_changes (fun x => forall k, x k = 0%R) m E0 p0 g dt) as (h & E & L & X & _); try assumption.
    + intros x y Hxy Hx k. rewrite <- Hxy. apply Hx.
    + reflexivity.
    + intros x y c d Hx Hy k. rewrite Hx, Hy. ring.
    + intros x Hx. apply (resting_ext 0 (fun _ => 0%R)); [intros; symmetry; apply Hx|exact resting_0].
    + apply exact_mild; assumption.
Qed.
(** and if the relaxation leaves states at rest alone, a step does nothing at all. *)
Theorem step_nothing m E0 p0 (g : grid) dt : sharp m E0 -> conf -> fin -> ready m -> (length nX = 2 -> NO_CORNERS o = false) -> equilibrium m E0 p0 -> (SPLIT = true -> forall h q, resting E0 q -> ode m h (Some q) = Some q) ->
  length g = cells -> Forall (resting E0) g -> solid g -> advance m g (repeat true cells) dt = Ok g.
Proof using HB HD.
  intros [HFl HK HJ HPa] HC HF HNu HNC HQ HI Lg Hg HS. pose proof HQ as [HV HT HR _ _ _ _ _].
  destruct (step_changes (fun x => forall k, x k = 0%R) m E0 p0 g dt) as (h & E & L & _ & X); try assumption.
  - intros x y Hxy Hx k. rewrite <- Hxy. apply Hx.
  - reflexivity.
  - intros x y c d Hx Hy k. rewrite Hx, Hy. ring.
  - intros x Hx. apply (resting_ext 0 (fun _ => 0%R)); [intros; symmetry; apply Hx|exact resting_0].
  - apply exact_mild; assumption.
  - rewrite E. f_equal. apply nth_ext with (d := fun _ => 0%R) (d' := fun _ => 0%R); [lia|]. rewrite L. intros c Hc. destruct (X c Hc) as (w & -> & Tw).
    assert (G : resting E0 (nth c g (fun _ => 0%R))) by (apply (proj1 (Forall_nth (resting E0) g) Hg); lia).
    assert (W : w = relaxed (ode m (dt / 2)%R) SPLIT (nth c g (fun _ => 0%R))) by (apply functional_extensionality; intros k; specialize (Tw k); cbv beta in Tw; lra).
    assert (I : forall q, resting E0 q -> relaxed (ode m (dt / 2)%R) SPLIT q = q) by (intros q Hq; unfold relaxed, at_numbers; destruct SPLIT; [|reflexivity]; rewrite (HI eq_refl _ q Hq); reflexivity).
    rewrite W, !I by (rewrite ?I; assumption). reflexivity.
Qed.

Section Run.
Variable svd : mat3 -> vec3 * mat3.
Variable speed : vec -> nat -> matpar -> option R.
Variable fill : list grid -> list (list bool) -> grid -> R -> res (grid * list grid * list (list bool)).
Variable nan : grid -> bool.
Variables (CFL tf tol : R) (m : matpar).
Notation prog := (program o NODES WGHTS ENDVALS DERVALS SIG LAMS LAMC EPS inv wallf ph prim Phi valid ode SPLIT HALF_STEP FLUX nX bt dX team svd speed fill nan false CFL tf tol [m]).
Notation tested := (tested o svd speed fill advance nan false dX CFL tf tol m).
Hypothesis HL : LSET o = 0.
Hypothesis HMv : mp_void m = false.

(** the distortion corrections of the iterator keep where there is fluid *)
Lemma solid_settled E0 (u u' : grid) : good_dims o nX -> length nodes = N o -> weno_setup nodes bs inv SIG LAMS LAMC EPS -> calm_walls E0 wallf bt (length nX) -> length u = cells ->
  Forall2 (settled E0) u u' -> Forall (resting E0) u -> solid u -> solid u'.
Proof using.
  clear HL HB HD. intros HGD Ln HW HWa Lu HF Hu. pose proof (settled_Forall E0 u u' HF Hu) as Hu'. pose proof (Forall2_len _ _ _ HF) as L'.
  assert (X : forall c, c < cells -> resting E0 (nth c u (fun _ => 0%R)) /\ resting E0 (nth c u' (fun _ => 0%R)) /\ nth c u (fun _ => 0%R) 0 = nth c u' (fun _ => 0%R) 0).
  { intros c Hc. split; [apply (proj1 (Forall_nth _ u) Hu); lia|]. split; [apply (proj1 (Forall_nth _ u') Hu'); lia|]. symmetry. apply (settled_nth E0); try assumption. lia. }
  unfold solid. destruct HGD as [(nx & E & Hx)|(nx & ny & E & Hx & Hy)]; rewrite E in X, HWa |- *; cbn [length fold_right] in *; rewrite Nat.mul_1_r in X.
  - apply solid1_density with (range := range) (E0 := E0) (nodes := nodes) (bs := bs); try assumption; lia.
  - apply solid2_density with (range := range) (E0 := E0) (nodes := nodes) (bs := bs); try assumption; try lia. intros a b Ha Hb. apply X. nia.
Qed.

(** C99. A run from rest with Rusanov's flux: the state at the end, and every snapshot, is at rest with the same energy per volume in every cell, hence, by [rests], under the same pressure. The
    distortion is not rotated; the states it goes through keep a density in the range. *)
Theorem run_rests E0 p0 fuel (u : grid) s b : FLUX = 0 -> conf -> fin -> ready m -> (length nX = 2 -> NO_CORNERS o = false) -> equilibrium m E0 p0 -> length u = cells -> Forall (resting E0) u -> solid u ->
  (forall g, tested (init [m] u) g -> solid g) -> prog fuel u = Ok (s, b) -> holds_of_output (fun _ g => Forall (resting E0) g) s.
Proof using HB HD HL HMv.
  intros HFl HC HF HNu HNC HQ Lu Hu HS HA E. pose proof HNu as (Ln & HW & _). pose proof HC as [_ HGD _ _ _].
  pose proof (eq_viscous m E0 p0 HQ) as HV. pose proof (eq_walls m E0 p0 HQ) as HWa.
  assert (X : holds_of_output (fun _ g => length g = cells /\ Forall (resting E0) g /\ solid g) s).
  { apply (run_invariant o NODES WGHTS ENDVALS DERVALS SIG LAMS LAMC EPS inv wallf ph prim Phi valid ode SPLIT HALF_STEP FLUX nX bt dX team svd speed fill nan false CFL tf tol m HC HL HMv
      (fun _ g => length g = cells /\ Forall (resting E0) g /\ solid g) solid fuel u s b); auto.
    intros t g dt u1 u2 c u' (Lg & Hg & Sg) _ EA EC S2 EP.
    destruct (step_rests m E0 p0 g dt HFl HC HF HNu HNC HQ Lg Hg Sg) as (h & E1 & L1 & H1). rewrite EA in E1. injection E1 as <-.
    pose proof (corrected_still o E0 svd m HL HMv HV c u1 u2 EC) as F1. pose proof (settled_Forall E0 _ _ F1 H1) as H2.
    pose proof (post_still o E0 svd m HL HMv HV tol c u1 u2 u' EC EP) as F2. pose proof (Forall2_len _ _ _ F1) as L2. pose proof (Forall2_len _ _ _ F2) as L3.
    split; [lia|]. split; [exact (settled_Forall E0 _ _ F2 H2)|]. apply (solid_settled E0 u2); try assumption. lia. }
  destruct X as [(_ & X & _) Y]. split; [exact X|]. intros i g t Hi. destruct (Y i g t Hi) as [Z|(_ & Z & _)]; [left; exact Z|right; exact Z].
Qed.
(** With the flux of Roe or Osher nothing has to be known about the states in between: however long the run, every state it gives out has the densities of the initial one, and is at rest. *)
Theorem run_sharp E0 p0 fuel (u : grid) s b : sharp m E0 -> conf -> fin -> ready m -> (length nX = 2 -> NO_CORNERS o = false) -> equilibrium m E0 p0 -> length u = cells -> Forall (resting E0) u -> solid u ->
  prog fuel u = Ok (s, b) -> holds_of_output (fun _ g => Forall (resting E0) g /\ Forall2 (fun q q' => q' 0 = q 0) u g) s.
Proof using HB HD HL HMv.
  intros HFl HC HF HNu HNC HQ Lu Hu HS E. pose proof HNu as (Ln & HW & _). pose proof HC as [_ HGD _ _ _].
  pose proof (eq_viscous m E0 p0 HQ) as HV. pose proof (eq_walls m E0 p0 HQ) as HWa.
  assert (XS : forall g : grid, Forall (resting E0) g -> Forall2 (fun q q' : vec => q' 0 = q 0) u g -> solid g).
  { intros g Hg Fg. apply (solid_settled E0 u); try assumption. clear - Hg Fg. induction Fg; constructor; inversion Hg; subst; auto. intros _. split; assumption. }
  assert (TR : forall g g' : grid, Forall2 (settled E0) g g' -> Forall (resting E0) g -> Forall2 (fun q q' : vec => q' 0 = q 0) u g -> Forall2 (fun q q' : vec => q' 0 = q 0) u g').
  { clear. intros g g' F. revert u. induction F as [|x y l l' Hxy F IH]; intros u Hg Fu; inversion Fu as [|z u' v0 v1 Hz Fz]; subst; constructor; inversion Hg; subst; auto. rewrite <- Hz. apply Hxy. assumption. }
  apply (run_invariant o NODES WGHTS ENDVALS DERVALS SIG LAMS LAMC EPS inv wallf ph prim Phi valid ode SPLIT HALF_STEP FLUX nX bt dX team svd speed fill nan false CFL tf tol m HC HL HMv
      (fun _ g => Forall (resting E0) g /\ Forall2 (fun q q' : vec => q' 0 = q 0) u g) (fun _ => True) fuel u s b); auto.
  - split; [exact Hu|]. clear. induction u; constructor; auto.
  - intros t g dt u1 u2 c u' (Hg & Fg) _ EA EC _ EP. assert (Lg : length g = cells) by (rewrite <- (Forall2_len _ _ _ Fg); exact Lu).
    destruct (step_sharp m E0 p0 g dt HFl HC HF HNu HNC HQ Lg Hg (XS g Hg Fg)) as (h & E1 & H1 & F0). rewrite EA in E1. injection E1 as <-.
    pose proof (corrected_still o E0 svd m HL HMv HV c u1 u2 EC) as F1. pose proof (settled_Forall E0 _ _ F1 H1) as H2.
    pose proof (post_still o E0 svd m HL HMv HV tol c u1 u2 u' EC EP) as F2.
    split; [exact (settled_Forall E0 _ _ F2 H2)|]. apply (TR u2 u' F2 H2), (TR u1 u2 F1 H1).
    clear - Fg F0. revert u1 F0. induction Fg as [|x y l l' Hxy Fg IH]; intros v F; inversion F; subst; constructor; auto. congruence.
Qed.
(** and with bounded wave speeds it ends at the final time *)
Theorem run_sharp_ends E0 p0 M fuel (u : grid) : sharp m E0 -> conf -> fin -> ready m -> (length nX = 2 -> NO_CORNERS o = false) -> equilibrium m E0 p0 -> length u = cells -> Forall (resting E0) u -> solid u ->
  (0 < CFL)%R -> (0 < tf)%R -> (forall g, nan g = false) -> slow dX speed M -> (tf < INR fuel * (CFL / M / 5))%R ->
  exists s, prog fuel u = Ok (s, false) /\ s_t s = tf /\ holds_of_output (fun _ g => Forall (resting E0) g /\ Forall2 (fun q q' => q' 0 = q 0) u g) s.
Proof using HB HD HL HMv.
  intros HFl HC HF HNu HNC HQ Lu Hu HS H1 H2 H3 HSl HFu. pose proof HNu as (Ln & HW & _). pose proof HC as [_ HGD _ _ _].
  pose proof (eq_viscous m E0 p0 HQ) as HV. pose proof (eq_walls m E0 p0 HQ) as HWa.
  destruct (loop_ends o NODES WGHTS ENDVALS DERVALS SIG LAMS LAMC EPS inv wallf ph prim Phi valid ode SPLIT HALF_STEP FLUX nX bt dX team svd speed fill nan false CFL tf tol m HC HL HMv H1 H2 H3
    (fun g => Forall2 (settled E0) u g) False M u fuel HSl HFu) as [(s & E & Et & _)|[[] _]].
  - intros g Fg. rewrite <- (Forall2_len _ _ _ Fg). exact Lu.
  - clear. induction u; constructor; auto. intros H. split; [exact H|reflexivity].
  - intros g dt Fg. left. pose proof (Forall2_len _ _ _ Fg) as Lg. pose proof (settled_Forall E0 _ _ Fg Hu) as Hg.
    destruct (step_sharp m E0 p0 g dt HFl HC HF HNu HNC HQ ltac:(lia) Hg) as (u1 & E1 & R1 & F0); [apply (solid_settled E0 u); assumption|].
    exists u1. split; [exact E1|]. intros c u' EP. assert (EP' := EP). unfold post in EP. apply bind_ok in EP. destruct EP as (u2 & EC & _).
    pose proof (corrected_still o E0 svd m HL HMv HV c u1 u2 EC) as F1. pose proof (post_still o E0 svd m HL HMv HV tol c u1 u2 u' EC EP') as F2.
    apply (F2_trans E0 _ _ _ Fg). apply (F2_trans E0 g u1 u').
    + clear - R1 F0. induction F0; constructor; inversion R1; subst; auto. intros _. split; assumption.
    + apply (F2_trans E0 _ _ _ F1 F2).
  - exists s. split; [exact E|]. split; [exact Et|]. apply (run_sharp E0 p0 fuel u s false); assumption.
Qed.
End Run.
End Step.

(** ** the predictor of the code keeps a state at rest *)
Theorem predictor_rests (range : R -> Prop) o ph nodes bs w dt dX DG_IT DG_TOL solve nonlin_solve valid nan_far STIFF STIFF_IG E0 p0 ndim q : (forall r, range r -> r <> 0%R) -> VISCOUS o = true -> THERMAL o = false -> length nodes = N o -> dg_basis nodes bs w ->
  rests range ph E0 p0 -> ndim = 1 \/ ndim = 2 -> still_setup range o nodes bs w DG_IT DG_TOL solve nonlin_solve valid STIFF STIFF_IG E0 ndim -> calm range E0 (N o ^ ndim) q ->
  exists f, Phi o ph w (end_values bs) (Dv bs nodes) (Dmat bs (fun k => nth k nodes 0%R) w) (Mof nodes bs w) dt dX DG_IT DG_TOL solve nonlin_solve valid nan_far STIFF STIFF_IG ndim (map (fun s => Some (q s)) (seq 0 (N o ^ ndim))) = Ok (Some f) /\
    forall t, t < N o -> exists b, f t = Some b /\ alike (N o ^ ndim) b q.
Proof.
  intros HD HV HT HL HB HR Hn HS HC. pose proof (fun t => predicted_still range HD o ph nodes bs w dt dX DG_IT DG_TOL solve nonlin_solve valid nan_far STIFF STIFF_IG HV HT HL HB E0 p0 HR ndim q t Hn HS HC) as PS.
  unfold predicted, Phi in *.
  destruct (pred_still range HD o ph nodes bs w dt dX DG_IT DG_TOL solve nonlin_solve valid nan_far STIFF STIFF_IG HV HT HL HB E0 p0 HR ndim _ _ Hn HS (view_all (N o ^ ndim) q)) as (p & Ep & Hp).
  - intros r Hr. rewrite nth_all by exact Hr. apply HC, Hr.
  - rewrite Ep in *. cbn [bind option_map time_blocks] in *. eexists. split; [reflexivity|]. intros t Ht. specialize (PS t Ht). cbn [option_map time_blocks] in *. eexists. split; [reflexivity|]. exact PS.
Qed.

(** ** A gas of the code: a stiffened gas without heat conduction, reaction or body force, with the relaxation of the code *)
Section Gas.
Variable o : options.
Variables (nodes : list R) (bs : list poly) (WGHTS : nat -> R).
Variables (SIG : nat -> nat -> R) (LAMS LAMC EPS : R) (inv : stencil -> (nat -> R) -> nat -> R).
Variable ds : vec -> vec.
Variables (K : PhysInst.rates) (sm : vec -> R * R * R) (specrad : EqModel.mat -> R) (eigabs : EqModel.mat -> vec -> vec) (z : option R) (svd5 : mat3 -> mat3 * vec3 * mat3).
Variable Phi : matpar -> R -> nat -> list num -> res (option (nat -> option nodal)).
Variable valid : matpar -> nodal -> bool.
Variables (SPLIT HALF_STEP : bool) (FLUX : nat).
Variables (nX : list nat) (bt : nat -> nat) (dX : list R) (team : matpar -> grid -> list bool -> R -> nat * list nat).
Variable m : matpar.
Variables (E0 : R).
Notation cells := (fold_right Nat.mul 1 nX).
Notation NODES := (fun i => nth i nodes 0%R).
Notation ENDVALS := (end_values bs).
Notation DERVALS := (Dv bs nodes).
Notation P := (mp_par m).
Notation positive := (fun r : R => (0 < r)%R).
Definition gas_phys (m : matpar) : phys := PhysInst.gpr o (mp_par m) sm specrad eigabs (source_or_zero o (mp_par m) K sm).
Definition gas_wall (ty d : nat) : num -> num := option_map (wall o ds ty d).
Definition gas_ode (m : matpar) : R -> num -> num := code_relaxation o (mp_par m) K sm z svd5.
Notation conf := (configured o Phi SPLIT FLUX nX bt dX team).
Notation fin := (finishing o NODES WGHTS ENDVALS DERVALS SIG LAMS LAMC EPS inv gas_wall gas_phys (fun _ => None) Phi valid gas_ode SPLIT HALF_STEP FLUX nX bt dX team).
Notation advance := (run_advance o NODES WGHTS ENDVALS DERVALS SIG LAMS LAMC EPS inv gas_wall gas_phys (fun _ => None) Phi valid gas_ode SPLIT HALF_STEP FLUX nX bt dX team).
(** the common pressure *)
Definition p_still : R := ((PhysModel.gam (PhysModel.prm P) - 1) * (E0 - PhysModel.pINF (PhysModel.prm P)) - PhysModel.pINF (PhysModel.prm P))%R.

Record still_gas : Prop := {
  sg_order : N o = 2; sg_nodes : length nodes = N o; sg_basis : dg_basis nodes bs WGHTS; sg_weno : weno_setup nodes bs inv SIG LAMS LAMC EPS;
  sg_viscous : VISCOUS o = true; sg_cold : THERMAL o = false; sg_destress : DESTRESS o = false; sg_corners : length nX = 2 -> NO_CORNERS o = false;
  sg_single : PhysModel.PMULTI P = false; sg_inert : PhysModel.REACTION P = (-1)%Z; sg_kind : PhysModel.kind (PhysModel.prm P) = PhysModel.STIFFENED_GAS; sg_body : forall i, i < 3 -> PhysModel.body P i = 0%R;
  sg_walls : forall k, k < 4 -> bt k <> MOVING;
  (** split: the singular values of a multiple of the identity are right; unsplit: the predictor keeps blocks at rest, as that of the code does by [predictor_rests] *)
  sg_svd : SPLIT = true -> decomposes_still E0 svd5;
  sg_half : SPLIT = true -> HALF_STEP = true -> forall q, calm positive E0 (N o ^ length nX) q -> valid m q = true;
  sg_pred : SPLIT = false -> forall dt q, calm positive E0 (N o ^ length nX) q -> exists f, Phi m dt (length nX) (map (fun s => Some (q s)) (seq 0 (N o ^ length nX))) = Ok (Some f) /\
    forall t, t < N o -> exists b, f t = Some b /\ alike (N o ^ length nX) b q }.
(** positive densities that do not vary too much: by less than a factor 3 on a line, 9/7 on a plane *)
Definition varied (u : grid) : Prop := exists a b : R, (0 < a)%R /\ (if Nat.eqb (length nX) 1 then b < 3 * a else 7 * b < 9 * a)%R /\ Forall (fun q : vec => a <= q 0%nat <= b)%R u.
(** no velocity, the common pressure, the common energy per volume *)
Definition quiescent (q : vec) : Prop := (q 2%nat = 0 /\ q 3%nat = 0 /\ q 4%nat = 0 /\ q 1%nat = E0 /\ EqModel.pressure (gas_phys m) q = p_still)%R.

Lemma gas_rests_here : still_gas -> rests positive (gas_phys m) E0 p_still.
Proof using. intros HG. unfold gas_phys, p_still. apply stiffened_gas_rests; try apply HG. intros; lra. Qed.
Lemma gas_walls_here : still_gas -> good_dims o nX -> calm_walls E0 gas_wall bt (length nX).
Proof using.
  intros HG HD k Hk _. assert (Hk4 : k < 4) by (destruct HD as [(nx & -> & _)|(nx & ny & -> & _)]; cbn [length] in Hk; lia). split; [intros v; eexists; reflexivity|].
  apply wall_still; [apply HG| |apply HG, Hk4]. apply Nat.lt_le_trans with 2; [apply Nat.div_lt_upper_bound; lia|lia].
Qed.
Lemma gas_ready : still_gas -> conf -> ready o SIG LAMS LAMC EPS inv gas_wall (fun _ => None) nX bt m nodes bs.
Proof using.
  intros HG HC. split; [apply HG|]. split; [apply HG|]. split; [exact I|]. pose proof HC as [_ HD HB _ _]. intros k Hk. split; [|intros _ v; eexists; reflexivity].
  apply HB. destruct HD as [(nx & -> & _)|(nx & ny & -> & _)]; cbn [length] in Hk; lia.
Qed.
Lemma gas_equilibrium : still_gas -> good_dims o nX -> equilibrium o gas_wall gas_phys (fun _ => None) Phi valid gas_ode SPLIT HALF_STEP nX bt positive m E0 p_still.
Proof using.
  intros HG HD. split; try apply HG; try reflexivity.
  - apply gas_rests_here, HG.
  - apply gas_walls_here; assumption.
  - intros HS h q Hq. exists q. split; [|auto]. unfold gas_ode. apply (relaxation_still o P K sm z svd5 E0 h q); try apply HG; assumption.
Qed.
Lemma gas_solid (u : grid) : still_gas -> good_dims o nX -> length u = cells -> Forall (resting E0) u -> varied u -> solid o bs SIG LAMS LAMC EPS inv gas_wall nX bt positive u.
Proof using.
  intros HG HD Lu Hu (a & b & Ha & Hb & Hr). pose proof (gas_walls_here HG HD) as HWa. pose proof (sg_order HG) as H2.
  assert (X : forall c, c < cells -> resting E0 (nth c u (fun _ => 0%R)) /\ (a <= nth c u (fun _ => 0%R) 0%nat <= b)%R).
  { intros c Hc. split; [apply (proj1 (Forall_nth _ u) Hu); lia|]. apply (proj1 (Forall_nth _ u) Hr); lia. }
  unfold solid. destruct HD as [(nx & E & Hx)|(nx & ny & E & Hx & Hy)]; rewrite E in *; cbn [length fold_right Nat.eqb] in *; rewrite Nat.mul_1_r in *.
  - apply (gentle1 o nodes bs SIG LAMS LAMC EPS inv H2 (sg_nodes HG) (sg_weno HG) WGHTS (sg_basis HG) E0 gas_wall bt nx _ a b); try assumption. lia.
  - apply (gentle2 o nodes bs SIG LAMS LAMC EPS inv H2 (sg_nodes HG) (sg_weno HG) WGHTS (sg_basis HG) E0 gas_wall bt nx ny _ a b); try assumption; try lia. intros c d Hc Hd. apply X. nia.
Qed.
Lemma gas_quiescent q : still_gas -> resting E0 q -> (0 < q 0%nat)%R -> quiescent q.
Proof using. intros HG Hq H0. destruct (gas_rests_here HG q Hq H0) as (HP & _). destruct Hq as [HE (H2 & H3 & H4) _ _]. unfold quiescent. auto. Qed.

(** C99, one step with Rusanov's flux: it diffuses the density, yet no velocity and no difference of pressure arises where the density stays positive. *)
Theorem gas_step_rests (u : grid) dt : still_gas -> FLUX = 0 -> conf -> fin -> length u = cells -> Forall (resting E0) u -> varied u ->
  exists h, advance m u (repeat true cells) dt = Ok h /\ length h = cells /\ Forall (fun q : vec => (0 < q 0%nat)%R -> quiescent q) h.
Proof using.
  intros HG HF HC Hfin Lu Hu HVa. pose proof HC as [_ HD _ _ _].
  destruct (step_rests o nodes bs WGHTS SIG LAMS LAMC EPS inv gas_wall gas_phys (fun _ => None) Phi valid gas_ode SPLIT HALF_STEP FLUX nX bt dX team (sg_basis HG) positive ltac:(intros; lra) m E0 p_still u dt HF HC Hfin
    (gas_ready HG HC) (sg_corners HG) (gas_equilibrium HG HD) Lu Hu (gas_solid u HG HD Lu Hu HVa)) as (h & E & L & Hh).
  exists h. split; [exact E|]. split; [exact L|]. apply (Forall_impl _ (P := resting E0)); [|exact Hh]. intros q Hq H0. apply gas_quiescent; assumption.
Qed.

(** C99, with the flux of Roe or Osher: a whole run leaves every density as it was, and no velocity and no difference of pressure ever arises. *)
Section Run.
Variable svd : mat3 -> vec3 * mat3.
Variable speed : vec -> nat -> matpar -> option R.
Variable fill : list grid -> list (list bool) -> grid -> R -> res (grid * list grid * list (list bool)).
Variable nan : grid -> bool.
Variables (CFL tf tol : R).
Notation prog := (program o NODES WGHTS ENDVALS DERVALS SIG LAMS LAMC EPS inv gas_wall gas_phys (fun _ => None) Phi valid gas_ode SPLIT HALF_STEP FLUX nX bt dX team svd speed fill nan false CFL tf tol [m]).
Lemma gas_sharp : still_gas -> FLUX = 1 \/ FLUX = 2 -> (0 < PhysModel.rho0 (PhysModel.prm P))%R -> PhysModel.gam (PhysModel.prm P) <> 1%R -> PhysModel.b02 (PhysModel.prm P) <> 0%R -> kills_kernel positive o (gas_phys m) E0 ->
  sharp o nodes gas_phys FLUX positive m E0.
Proof using.
  intros HG HF H0 H1 Hb HK. split; [exact HF|exact HK| |].
  - unfold gas_phys. apply stiffened_gas_jacobian; try apply HG; assumption.
  - intros a b i Hi Ha Hb'. pose proof (HX o nodes bs (sg_order HG) (sg_nodes HG) WGHTS (sg_basis HG) i Hi) as X. nra.
Qed.
Theorem gas_run_rests fuel (u : grid) s b : still_gas -> FLUX = 1 \/ FLUX = 2 -> (0 < PhysModel.rho0 (PhysModel.prm P))%R -> PhysModel.gam (PhysModel.prm P) <> 1%R -> PhysModel.b02 (PhysModel.prm P) <> 0%R -> kills_kernel positive o (gas_phys m) E0 ->
  LSET o = 0 -> mp_void m = false -> conf -> fin -> length u = cells -> Forall (resting E0) u -> varied u -> prog fuel u = Ok (s, b) ->
  holds_of_output (fun _ g => Forall2 (fun q q' : vec => q' 0 = q 0 /\ quiescent q') u g) s.
Proof using.
  intros HG HF H0 H1 Hb HK HL HMv HC Hfin Lu Hu HVa EP. pose proof HC as [_ HD _ _ _].
  pose proof (run_sharp o nodes bs WGHTS SIG LAMS LAMC EPS inv gas_wall gas_phys (fun _ => None) Phi valid gas_ode SPLIT HALF_STEP FLUX nX bt dX team (sg_basis HG) positive ltac:(intros; lra) svd speed fill nan CFL tf tol m HL HMv
    E0 p_still fuel u s b (gas_sharp HG HF H0 H1 Hb HK) HC Hfin (gas_ready HG HC) (sg_corners HG) (gas_equilibrium HG HD) Lu Hu (gas_solid u HG HD Lu Hu HVa) EP) as [X Y].
  assert (Q : forall g : grid, Forall (resting E0) g /\ Forall2 (fun q q' : vec => q' 0 = q 0) u g -> Forall2 (fun q q' : vec => q' 0 = q 0 /\ quiescent q') u g).
  { destruct HVa as (a & b1 & Ha & _ & Hr). clear - HG Ha Hr. intros g [Hg Fg]. induction Fg as [|q q' l l' E Fg IH]; constructor.
    - inversion Hg as [|x1 x2 Hq' Hgl]. inversion Hr as [|y1 y2 Hq Hrl]. subst. split; [exact E|]. apply gas_quiescent; [exact HG|exact Hq'|]. rewrite E. lra.
    - inversion Hg. inversion Hr. subst. apply IH; assumption. }
  split; [apply Q, X|]. intros i g t Hi. destruct (Y i g t Hi) as [Z|Z]; [left; exact Z|right; apply Q, Z].
Qed.
(** If the wave speeds are bounded, and nothing of it is NaN, the run ends at the final time. *)
Theorem gas_run_ends M fuel (u : grid) : still_gas -> FLUX = 1 \/ FLUX = 2 -> (0 < PhysModel.rho0 (PhysModel.prm P))%R -> PhysModel.gam (PhysModel.prm P) <> 1%R -> PhysModel.b02 (PhysModel.prm P) <> 0%R -> kills_kernel positive o (gas_phys m) E0 ->
  LSET o = 0 -> mp_void m = false -> conf -> fin -> length u = cells -> Forall (resting E0) u -> varied u -> (0 < CFL)%R -> (0 < tf)%R -> (forall g, nan g = false) -> slow dX speed M -> (tf < INR fuel * (CFL / M / 5))%R ->
  exists s, prog fuel u = Ok (s, false) /\ s_t s = tf /\ Forall2 (fun q q' : vec => q' 0 = q 0 /\ quiescent q') u (s_u s).
Proof using.
  intros HG HF H0 H1 Hb HK HL HMv HC Hfin Lu Hu HVa H4 H5 H6 HSl HFu. pose proof HC as [_ HD _ _ _].
  destruct (run_sharp_ends o nodes bs WGHTS SIG LAMS LAMC EPS inv gas_wall gas_phys (fun _ => None) Phi valid gas_ode SPLIT HALF_STEP FLUX nX bt dX team (sg_basis HG) positive ltac:(intros; lra) svd speed fill nan CFL tf tol m HL HMv
    E0 p_still M fuel u (gas_sharp HG HF H0 H1 Hb HK) HC Hfin (gas_ready HG HC) (sg_corners HG) (gas_equilibrium HG HD) Lu Hu (gas_solid u HG HD Lu Hu HVa) H4 H5 H6 HSl HFu) as (s & E & Et & _).
  exists s. split; [exact E|]. split; [exact Et|]. apply (gas_run_rests fuel u s false HG HF H0 H1 Hb HK HL HMv HC Hfin Lu Hu HVa E).
Qed.
End Run.
End Gas.

(** ** Four cells of a gas with densities 1, 2, 2, 1 and differently stretched distortions, between a stick wall and a symmetric wall; Roe's flux, the split solver, three threads. The run ends at
    time 1 with the densities it started with. *)
Definition still_cell (r a : R) : vec := fun k => if k =? 0 then r else if k =? 1 then 7%R else if (k =? 5) || (k =? 9) || (k =? 13) then a else 0%R.
Definition still_line : grid := [still_cell 1 1; still_cell 2 3; still_cell 2 (-1); still_cell 1 2].
Definition still_eigabs (M : EqModel.mat) (x : vec) : vec := fun k => if k <? 14 then Rabs (rsum 14 (fun j => M k j * x j)%R) else 0%R.
Definition still_svd (A : mat3) : mat3 * vec3 * mat3 := ((fun i j => if Nat.eqb i j then if Rle_dec 0 (A 0%nat 0%nat) then 1 else -1 else 0)%R, (fun _ => Rabs (A 0%nat 0%nat))%R, fun i j => (if Nat.eqb i j then 1 else 0)%R).
Definition still_ends (k : nat) : nat := if k =? 0 then 3 else 5.
Lemma still_cell_rests r a : resting 7 (still_cell r a).
Proof. split; cbn; auto. repeat split. Qed.
Lemma still_svd_right : decomposes_still 7 still_svd.
Proof.
  intros q Hq. set (a := q 5). unfold still_svd. set (g := (if Rle_dec 0 (get_A q 0%nat 0%nat) then 1 else -1)%R). assert (A0 : get_A q 0 0 = a) by (rewrite (A_still 7 q 0 0 Hq) by lia; reflexivity). rewrite A0.
  assert (G : (g * g = 1)%R) by (unfold g; destruct (Rle_dec 0 _); ring).
  assert (GA : (g * Rabs a = a)%R) by (unfold g; rewrite A0; destruct (Rle_dec 0 a) as [L|L]; [rewrite Rabs_right by lra; ring|rewrite Rabs_left by lra; ring]).
  assert (O : forall c : R, (c * c = 1)%R -> PhysSpec.orthogonal (fun i j => if Nat.eqb i j then c else 0%R)).
  { intros c Hc. split; intros x y Hx Hy; unfold mmul, mtr, sum3, id3, delta; (destruct x as [|[|[|x]]]; try lia); (destruct y as [|[|[|y]]]; try lia); cbn [Nat.eqb]; nra. }
  split; [apply O, G|]. split; [apply O; ring|]. split; [|split; [unfold RelaxSpec.descending; lra|apply Rabs_pos]].
  intros x y Hx Hy. rewrite (A_still 7 q x y Hq Hx Hy). fold a. unfold RelaxSpec.assemble, RelaxSpec.diag, mmul, mtr, sum3.
  destruct x as [|[|[|x]]]; try lia; (destruct y as [|[|[|y]]]; try lia); cbn [Nat.eqb]; lra.
Qed.
Example gas_case Phi svd fill tol : let m := MirrorProps.ex_gas in
  exists nodes bs w inv SIG team, (forall m g k dt, fst (team m g k dt) = 3) /\
    let phys := gas_phys ex_opt MirrorProps.ex_rates (fun _ => (0, 0, 0)%R) MirrorProps.ex_specrad still_eigabs in
    exists s, program ex_opt (fun k => nth k nodes 0%R) w (end_values bs) (Dv bs nodes) SIG 1 100000 (1 / 100) inv (gas_wall ex_opt (fun q => q)) phys (fun _ => None) Phi (fun _ _ => true)
      (gas_ode ex_opt MirrorProps.ex_rates (fun _ => (0, 0, 0)%R) None still_svd) true true 1 [4] still_ends [1%R] team svd (fun _ _ _ => Some 1%R) fill (fun _ => false) false (1 / 2) 1 tol [m] 11 still_line = Ok (s, false) /\
      s_t s = 1%R /\ map (fun q : vec => q 0) (s_u s) = [1; 2; 2; 1]%R /\ Forall (fun q : vec => q 2 = 0%R /\ EqModel.pressure (phys m) q = (7 / 5)%R) (s_u s).
Proof.
  intros m. destruct dg_basis_hyps as [nodes [bs [w [G L]]]]. pose proof G as [Dn [Bn _]]. destruct (weno_hyps nodes Dn ltac:(lia)) as [bs' [inv [SIG HW]]].
  pose proof HW as [_ [Bn' _]]. rewrite Bn in Bn'. injection Bn' as <-.
  assert (C : forall team : matpar -> grid -> list bool -> R -> nat * list nat, (forall m g k dt, fst (team m g k dt) = 3) -> configured ex_opt Phi true 1 [4] still_ends [1%R] team).
  { intros team T. split.
    - split; [reflexivity|]. split; [lia|]. split; cbn; lra.
    - left. exists 4. split; [reflexivity|]. cbn. lia.
    - intros k Hk. unfold still_ends. destruct (k =? 0); lia.
    - intros. rewrite T. lia.
    - discriminate. }
  set (ode := gas_ode ex_opt MirrorProps.ex_rates (fun _ => (0, 0, 0)%R) None still_svd). set (ph := gas_phys ex_opt MirrorProps.ex_rates (fun _ => (0, 0, 0)%R) MirrorProps.ex_specrad still_eigabs).
  destruct (finishing_exists ex_opt (fun k => nth k nodes 0%R) w (end_values bs) (Dv bs nodes) SIG 1 100000 (1 / 100) inv (gas_wall ex_opt (fun q => q)) ph (fun _ => None) Phi (fun _ _ => true) ode true true 1 [4] still_ends [1%R]
    (fun _ _ _ _ => 3) (fun _ _ _ _ => Nat.lt_0_succ 2) (C (fun _ _ _ _ => (3, [])) (fun _ _ _ _ => eq_refl))) as (team & T & F).
  exists nodes, bs, w, inv, SIG, team. split; [exact T|]. cbv zeta.
  destruct (gas_run_ends ex_opt nodes bs w SIG 1 100000 (1 / 100) inv (fun q => q) MirrorProps.ex_rates (fun _ => (0, 0, 0)%R) MirrorProps.ex_specrad still_eigabs None still_svd Phi (fun _ _ => true) true true 1 [4] still_ends [1%R] team m 7
    svd (fun _ _ _ => Some 1%R) fill (fun _ => false) (1 / 2) 1 tol 1 11 still_line) as (s & E & Et & X); try reflexivity; try (cbn; lra); try exact F.
  - split; try reflexivity; try assumption; try discriminate; auto.
    + intros k _. unfold still_ends, MOVING. destruct (k =? 0); discriminate.
    + intros _. exact still_svd_right.
  - left. reflexivity.
  - intros M x _ Hx k. cbn. unfold still_eigabs. destruct (Nat.ltb_spec k 14) as [Hk|Hk]; [|reflexivity]. change (V ex_opt) with 14 in Hx. rewrite (Hx k Hk). apply Rabs_R0.
  - exact (C team T).
  - repeat (constructor; [apply still_cell_rests|]). constructor.
  - exists 1%R, 2%R. split; [lra|]. split; [cbn; lra|]. repeat (constructor; [cbn; lra|]). constructor.
  - split; [lra|]. intros q m' c H. cbn [speed_sum]. specialize (H 0 ltac:(cbn; lia)). injection H as H. rewrite <- H. lra.
  - exists s. split; [exact E|]. split; [exact Et|].
    assert (X1 : map (fun q : vec => q 0) (s_u s) = map (fun q : vec => q 0) still_line) by (clear - X; revert X; generalize still_line (s_u s); intros l l' X; induction X as [|x y l l' H X IH]; [reflexivity|]; cbn [map]; rewrite IH; f_equal; apply H).
    split; [exact X1|]. clear X1. revert X. generalize still_line (s_u s). intros l l' X. induction X as [|x y l l' H X IH]; constructor; [|exact IH]. destruct H as (_ & HQ & _ & _ & _ & HP). split; [exact HQ|].
    etransitivity; [exact HP|]. unfold p_still. cbn. lra.
Qed.

(** the tables of the shipped order, 50 iterations and the code's tolerance, on a line and on a plane: what [predictor_rests] asks *)
Example predictor_case nonlin_solve : exists nodes bs w solve, length nodes = 2 /\ dg_basis nodes bs w /\
  forall ndim, ndim = 1 \/ ndim = 2 -> still_setup (fun r => (0 < r)%R) ex_opt nodes bs w 50 (6 / 1000000) solve nonlin_solve (fun _ => true) false false 7 ndim.
Proof.
  destruct dg_basis_hyps as [nodes [bs [w [G L]]]]. destruct (two_node_solver ex_opt nodes bs w G eq_refl L) as [s1 S1]. destruct (CornerProof3.two_node_solver_2d ex_opt nodes bs w G eq_refl L) as [s2 S2].
  exists nodes, bs, w, (fun d => if d =? 1 then s1 else s2). split; [exact L|]. split; [exact G|]. intros ndim Hn. split; [reflexivity|]. split; [discriminate|]. split; [lia|]. split; [lra|].
  destruct Hn as [-> | ->]; assumption.
Qed.

Print Assumptions step_rests.
Print Assumptions step_sharp.
Print Assumptions step_nothing.
Print Assumptions step_met.
Print Assumptions run_rests.
Print Assumptions run_sharp.
Print Assumptions run_sharp_ends.
Print Assumptions predictor_rests.
Print Assumptions gas_step_rests.
Print Assumptions gas_run_rests.
Print Assumptions gas_run_ends.
