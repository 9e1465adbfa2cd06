(** C93, C94: cases in which the relaxation is that of the code, which gives numbers at some states only. *)
From Coq Require Import Reals Lia Lra ZArith FunctionalExtensionality.
From Verif Require Import Base Options Sum Mat3 EqModel EqSpec FvModel FvBody FvSpec FvProof FvProps PolyModel WenoModel WenoSpec WenoProof WenoProps DgModel DgSpec DgProof2 DgProps GridModel GridSpec GridProof GridProps StepperModel AderModel AderProof3 AderProof4
  AderProps Ader2Props Ader3Props HomogModel SplitProps PhysModel RelaxModel UtilsModel UtilsProof UtilsProps IterModel IterSpec IterProof2 IterProps Split3Props SafeProof RunModel RunProof RunProof2 RunProps RunProof3 RunProof4 Run2Props
  MRunModel MRunProof RefSpec RefProof RefProof2 RefProof3 RefProof4 RefProof5 RefProps MirrorSpec MirrorProof2 MirrorProof3 MirrorProof4 MirrorProof5 FlatProof FlatProof2 FlatProof3 RestSpec RestProof RestProof2 RestProof3 RestProof4 RestProof5 RestProps MirrorRelProps.
From Verif Require MirrorJac MRunProps CornerProof3 StiffProps PhysInst PhysProps MirrorProps FlatProps.
Import List ListNotations.
Open Scope nat_scope.

(** what every turn keeps holds of the states handed to the solver *)
Lemma handed_keeps o svd speed fill advance nan ROT dX CFL tf tol m (P : grid -> Prop) n : LSET o = 0 -> mp_void m = false ->
  (forall u c dt u1 u', P u -> length u = n -> advance m u (repeat true n) dt = Ok u1 -> post o svd ROT tol m (S c) u1 = Ok u' -> P u' /\ length u' = n) ->
  forall s g dt, handed o svd speed fill advance nan ROT dX CFL tf tol m s g dt -> (exists g0, s_grids s = [g0]) -> s_masks s = [repeat true n] -> length (s_u s) = n -> P (s_u s) -> P g /\ length g = n.
Proof.
  intros HL HM HP s g dt H. induction H as [s g dt k Lt EK ET ->|s g dt s' Lt ET _ IH]; intros [g0 EG] EM Lu Pu; [auto|].
  rewrite (turn_single o svd speed fill advance nan ROT dX CFL tf tol m HL HM s g0 _ EG EM) in ET. apply bind_ok in ET. destruct ET as ([d|] & ED & ER); [|discriminate].
  apply bind_ok in ER. destruct ER as (u1 & EA & ER). apply bind_ok in ER. destruct ER as (u' & EP & ER). destruct (HP _ _ _ _ _ Pu Lu EA EP) as [P1 L1].
  apply bind_ok in ER. destruct ER as ([ret push] & EW & ER). destruct (nan u').
  - apply bind_ok in ER. destruct ER as (r1 & W1 & ER). apply bind_ok in ER. destruct ER as (r2 & W2 & ER). discriminate.
  - injection ER as <-. apply IH; cbn [s_u s_grids s_masks]; eauto.
Qed.

Section Handed.
Variable o : options.
Variables (nodes : list R) (bs : list poly) (WGHTS : nat -> R).
Variables (SIG : nat -> nat -> R) (LAMS LAMC EPS : R) (inv : stencil -> (nat -> R) -> nat -> R).
Variable wallf : nat -> nat -> num -> num.
Variable ph : matpar -> phys.
Variable prim : matpar -> option ((num -> num) * (num -> num)).
Variable Phi : matpar -> R -> nat -> list num -> res (option (nat -> option nodal)).
Variable valid : matpar -> nodal -> bool.
Variable ode : matpar -> R -> num -> num.
Variables (SPLIT HALF_STEP : bool) (FLUX : nat).
Variables (nX : list nat) (bt : nat -> nat) (dX : list R) (team : matpar -> grid -> list bool -> R -> nat * list nat).
Notation cells := (fold_right Nat.mul 1 nX).
Notation NODES := (fun i => nth i nodes 0%R).
Notation ENDVALS := (end_values bs).
Notation DERVALS := (Dv bs nodes).
Notation conf := (configured o Phi SPLIT FLUX nX bt dX team).
Notation fin := (finishing o NODES WGHTS ENDVALS DERVALS SIG LAMS LAMC EPS inv wallf ph prim Phi valid ode SPLIT HALF_STEP FLUX nX bt dX team).
Notation ready m := (ready o SIG LAMS LAMC EPS inv wallf prim nX bt m nodes bs).
Notation met := (met o NODES WGHTS ENDVALS DERVALS SIG LAMS LAMC EPS inv wallf ph prim Phi valid ode SPLIT HALF_STEP FLUX nX bt dX).
Notation advance := (run_advance o NODES WGHTS ENDVALS DERVALS SIG LAMS LAMC EPS inv wallf ph prim Phi valid ode SPLIT HALF_STEP FLUX nX bt dX team).
Notation equilibrium := (equilibrium o wallf ph prim Phi valid ode SPLIT HALF_STEP nX bt).
Notation sharp := (sharp o nodes ph FLUX).
Notation solid := (solid o bs SIG LAMS LAMC EPS inv wallf nX bt).
(** Every state a run from rest hands to the solver, with the flux of Roe or Osher, is the initial one but for the distortion, *)
Theorem rest_handed (range : R -> Prop) svd speed fill nan CFL tf tol m (E0 p0 : R) (u : grid) : dg_basis nodes bs WGHTS -> (forall r, range r -> r <> 0%R) -> LSET o = 0 -> mp_void m = false ->
  sharp range m E0 -> conf -> fin -> ready m -> (length nX = 2 -> NO_CORNERS o = false) -> equilibrium range m E0 p0 -> length u = cells -> Forall (resting E0) u -> solid range u ->
  forall g dt, handed o svd speed fill advance nan false dX CFL tf tol m (init [m] u) g dt -> length g = cells /\ Forall2 (fun q q' => resting E0 q' /\ q' 0 = q 0) u g /\ solid range g.
Proof using.
  intros HB HD HL HMv HS HC HF HNu HNC HQ Lu Hu HSo g dt Hg. pose proof HNu as (Ln & HW & _). pose proof HC as [_ HGD _ _ _]. pose proof (eq_viscous _ _ _ _ _ _ _ _ _ _ _ _ _ _ _ HQ) as HV. pose proof (eq_walls _ _ _ _ _ _ _ _ _ _ _ _ _ _ _ HQ) as HWa.
  assert (XS : forall g : grid, Forall2 (settled E0) u g -> solid range g).
  { intros g' Fg. apply (solid_settled o nodes bs SIG LAMS LAMC EPS inv wallf nX bt range E0 u); assumption. }
  destruct (handed_keeps o svd speed fill advance nan false dX CFL tf tol m (fun g => Forall2 (settled E0) u g) cells HL HMv) with (s := init [m] u) (g := g) (dt := dt) as [Fg Lg]; try assumption.
  - intros v c h u1 u' Fv Lv EA EP. pose proof (settled_Forall E0 _ _ Fv Hu) as Hv.
    destruct (step_sharp o nodes bs WGHTS SIG LAMS LAMC EPS inv wallf ph prim Phi valid ode SPLIT HALF_STEP FLUX nX bt dX team HB range HD m E0 p0 v h HS HC HF HNu HNC HQ Lv Hv (XS v Fv)) as (w & E1 & R1 & F0).
    rewrite EA in E1. injection E1 as <-. assert (EP' := EP). unfold post in EP. apply bind_ok in EP. destruct EP as (u2 & EC & _).
    pose proof (corrected_still o E0 svd m HL HMv HV (S c) u1 u2 EC) as F1. pose proof (post_still o E0 svd m HL HMv HV tol (S c) u1 u2 u' EC EP') as F2.
    assert (FF : Forall2 (settled E0) u u').
    { apply (F2_trans E0 _ _ _ Fv). apply (F2_trans E0 v u1 u'); [|apply (F2_trans E0 _ _ _ F1 F2)]. clear - R1 F0. induction F0; constructor; inversion R1; subst; auto. intros _. split; assumption. }
    split; [exact FF|]. rewrite <- (Forall2_len _ _ _ FF). exact Lu.
  - exists u. reflexivity.
  - cbn [init s_masks length repeat]. rewrite Lu. reflexivity.
  - cbn [init s_u]. clear. induction u; constructor; auto. intros H. split; [exact H|reflexivity].
  - split; [exact Lg|]. split; [|exact (XS g Fg)]. clear - Fg Hu. induction Fg; constructor; inversion Hu; subst; auto.
Qed.
(** and one at which the relaxation, the half step and the predictor give numbers. *)
Theorem rest_handed_met (range : R -> Prop) svd speed fill nan CFL tf tol m (E0 p0 : R) (u : grid) : dg_basis nodes bs WGHTS -> (forall r, range r -> r <> 0%R) -> LSET o = 0 -> mp_void m = false ->
  sharp range m E0 -> conf -> fin -> ready m -> (length nX = 2 -> NO_CORNERS o = false) -> equilibrium range m E0 p0 -> length u = cells -> Forall (resting E0) u -> solid range u ->
  forall g dt, handed o svd speed fill advance nan false dX CFL tf tol m (init [m] u) g dt -> met m g (repeat true cells) dt.
Proof using.
  intros HB HD HL HMv HS HC HF HNu HNC HQ Lu Hu HSo g dt Hg. destruct (rest_handed range svd speed fill nan CFL tf tol m E0 p0 u HB HD HL HMv HS HC HF HNu HNC HQ Lu Hu HSo g dt Hg) as (Lg & Fg & Sg).
  apply (step_met o nodes bs WGHTS SIG LAMS LAMC EPS inv wallf ph prim Phi valid ode SPLIT HALF_STEP FLUX nX bt dX team HB range HD m E0 p0 g dt); try assumption; [right; exact HS|].
  clear - Fg. induction Fg as [|? ? ? ? [? _]]; constructor; auto.
Qed.
End Handed.

(** C93 with the code's relaxation: the gas of C99, densities 1 2 2 1 on a periodic line, Roe's flux; the run of the shifted line, by one thread, is the shifted run by three, and both end. *)
Example gas_shift_case Phi svd fill tol : let m := MirrorProps.ex_gas in
  exists nodes bs w inv SIG team team', (forall m g k dt, fst (team m g k dt) = 3) /\ (forall m g k dt, fst (team' m g k dt) = 1) /\
  let prog team := program ex_opt (fun k => nth k nodes 0%R) w (end_values bs) (Dv bs nodes) SIG 1 100000 (1 / 100) inv (gas_wall ex_opt (fun q => q)) (gas_phys ex_opt MirrorProps.ex_rates (fun _ => (0, 0, 0)%R) MirrorProps.ex_specrad still_eigabs)
      (fun _ => None) Phi (fun _ _ => true) (gas_ode ex_opt MirrorProps.ex_rates (fun _ => (0, 0, 0)%R) None still_svd) true true 1 [4] (fun _ => 1) [1%R] team svd (fun _ _ _ => Some 1%R) fill (fun _ => false) false (1 / 2) 1 tol [m] 11 in
  exists s s', prog team still_line = Ok (s, false) /\ prog team' (image (fun q => q) (turned 4 1) still_line) = Ok (s', false) /\ s_t s' = 1%R /\ s_u s' = map (fun c => nth ((c + 1) mod 4) (s_u s) (fun _ => 0%R)) (seq 0 (length (s_u s))).
Proof.
  intros m. destruct dg_basis_hyps as [nodes [bs [w [G L]]]]. pose proof G as [Dn [Bn _]]. destruct (weno_hyps nodes Dn ltac:(lia)) as [bs' [inv [SIG HW]]].
  pose proof HW as [_ [Bn' _]]. rewrite Bn in Bn'. injection Bn' as <-.
  assert (C : forall team : matpar -> grid -> list bool -> R -> nat * list nat, (forall m g k dt, 0 < fst (team m g k dt)) -> configured ex_opt Phi true 1 [4] (fun _ => 1) [1%R] team).
  { intros team T. split.
    - split; [reflexivity|]. split; [lia|]. split; cbn; lra.
    - left. exists 4. split; [reflexivity|]. cbn. lia.
    - intros k Hk. lia.
    - intros. apply T.
    - discriminate. }
  set (ode := gas_ode ex_opt MirrorProps.ex_rates (fun _ => (0, 0, 0)%R) None still_svd). set (ph := gas_phys ex_opt MirrorProps.ex_rates (fun _ => (0, 0, 0)%R) MirrorProps.ex_specrad still_eigabs).
  assert (FE : forall p, 0 < p -> exists team, (forall m g k dt, fst (team m g k dt) = p) /\
     finishing ex_opt (fun k => nth k nodes 0%R) w (end_values bs) (Dv bs nodes) SIG 1 100000 (1 / 100) inv (gas_wall ex_opt (fun q => q)) ph (fun _ => None) Phi (fun _ _ => true) ode true true 1 [4] (fun _ => 1) [1%R] team).
  { intros p Hp. apply (finishing_exists ex_opt (fun k => nth k nodes 0%R) w (end_values bs) (Dv bs nodes) SIG 1 100000 (1 / 100) inv (gas_wall ex_opt (fun q => q)) ph (fun _ => None) Phi (fun _ _ => true) ode true true 1 [4] (fun _ => 1) [1%R]
      (fun _ _ _ _ => p)); [auto|]. apply (C (fun _ _ _ _ => (p, []))). intros. exact Hp. }
  destruct (FE 3 ltac:(lia)) as (team & T & F). destruct (FE 1 ltac:(lia)) as (team' & T' & F'). exists nodes, bs, w, inv, SIG, team, team'. split; [exact T|]. split; [exact T'|]. cbv zeta.
  pose proof (C team ltac:(intros; rewrite T; lia)) as CT. pose proof (C team' ltac:(intros; rewrite T'; lia)) as CT'.
  assert (SG : still_gas ex_opt nodes bs w SIG 1 100000 (1 / 100) inv still_svd Phi (fun _ _ => true) true true [4] (fun _ => 1) m 7).
  { split; try reflexivity; try assumption; try discriminate; auto. intros _. exact still_svd_right. }
  assert (KK : kills_kernel (fun r : R => (0 < r)%R) ex_opt (ph m) 7).
  { intros M x _ Hx k. cbn. unfold still_eigabs. destruct (Nat.ltb_spec k 14) as [Hk|Hk]; [|reflexivity]. change (V ex_opt) with 14 in Hx. rewrite (Hx k Hk). apply Rabs_R0. }
  assert (RE : Forall (resting 7) still_line) by (repeat (constructor; [apply still_cell_rests|]); constructor).
  assert (VA : varied [4] still_line) by (exists 1%R, 2%R; split; [lra|]; split; [cbn; lra|]; repeat (constructor; [cbn; lra|]); constructor).
  destruct (gas_run_ends ex_opt nodes bs w SIG 1 100000 (1 / 100) inv (fun q => q) MirrorProps.ex_rates (fun _ => (0, 0, 0)%R) MirrorProps.ex_specrad still_eigabs None still_svd Phi (fun _ _ => true) true true 1 [4] (fun _ => 1) [1%R] team m 7
    svd (fun _ _ _ => Some 1%R) fill (fun _ => false) (1 / 2) 1 tol 1 11 still_line) as (s & E & Et & X); try reflexivity; try (cbn; lra); try exact F; try assumption; try (left; reflexivity).
  { split; [lra|]. intros q m' c H. cbn [speed_sum]. specialize (H 0 ltac:(cbn; lia)). injection H as H. rewrite <- H. lra. }
  pose proof CT as [_ GD _ _ _].
  pose proof (gas_ready ex_opt nodes bs w SIG 1 100000 (1 / 100) inv (fun q => q) still_svd Phi (fun _ _ => true) true true 1 [4] (fun _ => 1) [1%R] team m 7 SG CT) as RD.
  pose proof (rest_handed_met ex_opt nodes bs w SIG 1 100000 (1 / 100) inv (gas_wall ex_opt (fun q => q)) ph (fun _ => None) Phi (fun _ _ => true) ode true true 1 [4] (fun _ => 1) [1%R] team (fun r : R => (0 < r)%R) svd (fun _ _ _ => Some 1%R) fill (fun _ => false)
    (1 / 2) 1 tol m 7 (p_still m 7) still_line G ltac:(intros; lra) eq_refl eq_refl) as MH.
  pose proof (run_translates_met_1d ex_opt (fun k => nth k nodes 0%R) w (end_values bs) (Dv bs nodes) SIG 1 100000 (1 / 100) inv (gas_wall ex_opt (fun q => q)) ph (fun _ => None) Phi (fun _ _ => true) ode true true 1 (fun _ => 1) [1%R]
    svd (fun _ _ _ => Some 1%R) fill fill (fun _ => false) false (1 / 2) 1 tol m eq_refl eq_refl 4 team team' nodes bs 1 11 still_line CT F CT' F' RD) as Y.
  rewrite Y; try reflexivity.
  - fold ph ode in E. rewrite E. cbn [image_run]. eexists. eexists. split; [reflexivity|]. split; [reflexivity|]. split; [exact Et|]. reflexivity.
  - apply MH; try assumption; try reflexivity; try discriminate.
    + apply (gas_sharp ex_opt nodes bs w SIG 1 100000 (1 / 100) inv MirrorProps.ex_rates (fun _ => (0, 0, 0)%R) MirrorProps.ex_specrad still_eigabs still_svd Phi (fun _ _ => true) true true 1 [4] (fun _ => 1) m 7 SG); try assumption; try (left; reflexivity); cbn; lra.
    + apply (gas_equilibrium ex_opt nodes bs w SIG 1 100000 (1 / 100) inv (fun q => q) MirrorProps.ex_rates (fun _ => (0, 0, 0)%R) MirrorProps.ex_specrad still_eigabs None still_svd Phi (fun _ _ => true) true true [4] (fun _ => 1) m 7 SG GD).
    + apply (gas_solid ex_opt nodes bs w SIG 1 100000 (1 / 100) inv (fun q => q) still_svd Phi (fun _ _ => true) true true [4] (fun _ => 1) m 7 still_line SG GD); try assumption. reflexivity.
Qed.

(** ** C94 with the code's relaxation and Roe's flux *)
Definition sq_eigabs (M : EqModel.mat) (x : vec) : vec := fun k => if k <? 14 then rsum 14 (fun i => M k i * rsum 14 (fun j => M i j * x j))%R else 0%R.
Lemma sq_mirror (M M' : EqModel.mat) x : (forall a b, M' a b = - (sign ex_opt a * sign ex_opt b * M a b))%R -> sq_eigabs M' (fun k => - (sign ex_opt k * x k))%R = fun k => (- (sign ex_opt k * sq_eigabs M x k))%R.
Proof.
  intros E. apply functional_extensionality. intros k. unfold sq_eigabs. destruct (k <? 14); [|ring]. rewrite <- rsum_scal, <- rsum_opp. apply rsum_ext. intros i _.
  rewrite (rsum_ext 14 _ (fun j => sign ex_opt i * (M i j * x j)))%R.
  - rewrite rsum_scal, E. transitivity (- (sign ex_opt k * (M k i * (sign ex_opt i * sign ex_opt i) * rsum 14 (fun j => M i j * x j))))%R; [ring|]. rewrite MirrorJac.sign_sq. ring.
  - intros j _. rewrite E. transitivity (sign ex_opt i * (M i j * x j) * (sign ex_opt j * sign ex_opt j))%R; [ring|]. rewrite MirrorJac.sign_sq. ring.
Qed.
Lemma still_handless : handless_svd still_svd.
Proof.
  intros A A' E. unfold still_svd. assert (A' 0 0 = A 0 0) as ->.
  { rewrite (E 0 0) by lia. unfold reflected, mmul, mtr, sum3, reflection. cbn [Nat.eqb]. ring. }
  split; [reflexivity|]. intros H. destruct H. split; reflexivity.
Qed.
Lemma mirror_rests q : resting 7 q -> resting 7 (mirror ex_opt q) /\ mirror ex_opt q 0 = q 0.
Proof.
  intros [E (M1 & M2 & M3) (O1 & O2 & O3 & O4 & O5 & O6) (D1 & D2)]. split; [|unfold mirror, sign; ring]. split; unfold mirror, sign; cbn; repeat split; try (rewrite ?E, ?M1, ?M2, ?M3, ?O1, ?O2, ?O3, ?O4, ?O5, ?O6, ?D1, ?D2; ring).
Qed.
(** Roe's flux: a stick wall on the left and a symmetric one on the right, densities 1 2 2 1.5; the mirrored line with the walls exchanged *)
Definition slanted : grid := [still_cell 1 1; still_cell 2 3; still_cell 2 (-1); still_cell (3 / 2) 2].
Example gas_mirror_case Phi svd fill tol : (forall q, fst (svd (get_A (mirror ex_opt q))) = fst (svd (get_A q))) -> let m := MirrorProps.ex_gas in
  exists nodes bs w inv SIG team team', (forall m g k dt, fst (team m g k dt) = 3) /\ (forall m g k dt, fst (team' m g k dt) = 1) /\
  let prog bt team := program ex_opt (fun k => nth k nodes 0%R) w (end_values bs) (Dv bs nodes) SIG 1 100000 (1 / 100) inv (gas_wall ex_opt (fun q => q)) (gas_phys ex_opt MirrorProps.ex_rates (fun _ => (0, 0, 0)%R) MirrorProps.ex_specrad sq_eigabs)
      (fun _ => None) Phi (fun _ _ => true) (gas_ode ex_opt MirrorProps.ex_rates (fun _ => (0, 0, 0)%R) None still_svd) true true 1 [4] bt [1%R] team svd (fun _ _ _ => Some 1%R) fill (fun _ => false) false (1 / 2) 1 tol [m] 11 in
  exists s s', prog (fun k => if k =? 0 then STICK else SYMMETRIC) team slanted = Ok (s, false) /\ prog (fun k => if k =? 0 then SYMMETRIC else STICK) team' (image (mirror ex_opt) (MirrorProps.flipped 4) slanted) = Ok (s', false) /\
    s_t s' = 1%R /\ s_u s' = image (mirror ex_opt) (MirrorProps.flipped 4) (s_u s).
Proof.
  intros Hsvd m. destruct MirrorProps.symmetric_tables as (nodes & bs & w & inv & SIG & L & HW & HT). pose proof HT as (G & _).
  set (bt := fun k => if k =? 0 then STICK else SYMMETRIC). set (bt' := fun k => if k =? 0 then SYMMETRIC else STICK).
  assert (Hb : forall k, bt k <= 5) by (intros [|k]; unfold bt, STICK, SYMMETRIC; cbn; lia). assert (Hb' : forall k, bt' k <= 5) by (intros [|k]; unfold bt', STICK, SYMMETRIC; cbn; lia).
  assert (C : forall b (team : matpar -> grid -> list bool -> R -> nat * list nat), (forall k, b k <= 5) -> (forall m g k dt, 0 < fst (team m g k dt)) -> configured ex_opt Phi true 1 [4] b [1%R] team).
  { intros b team B T. split.
    - split; [reflexivity|]. split; [lia|]. split; cbn; lra.
    - left. exists 4. split; [reflexivity|]. cbn. lia.
    - intros k Hk. apply B.
    - intros. apply T.
    - discriminate. }
  set (ode := gas_ode ex_opt MirrorProps.ex_rates (fun _ => (0, 0, 0)%R) None still_svd). set (ph := gas_phys ex_opt MirrorProps.ex_rates (fun _ => (0, 0, 0)%R) MirrorProps.ex_specrad sq_eigabs).
  assert (FE : forall b p, (forall k, b k <= 5) -> 0 < p -> exists team, (forall m g k dt, fst (team m g k dt) = p) /\
     finishing ex_opt (fun k => nth k nodes 0%R) w (end_values bs) (Dv bs nodes) SIG 1 100000 (1 / 100) inv (gas_wall ex_opt (fun q => q)) ph (fun _ => None) Phi (fun _ _ => true) ode true true 1 [4] b [1%R] team).
  { intros b p B Hp. apply (finishing_exists ex_opt (fun k => nth k nodes 0%R) w (end_values bs) (Dv bs nodes) SIG 1 100000 (1 / 100) inv (gas_wall ex_opt (fun q => q)) ph (fun _ => None) Phi (fun _ _ => true) ode true true 1 [4] b [1%R]
      (fun _ _ _ _ => p)); [auto|]. apply (C b (fun _ _ _ _ => (p, [])) B). intros. exact Hp. }
  destruct (FE bt 3 Hb ltac:(lia)) as (team & T & F). destruct (FE bt' 1 Hb' ltac:(lia)) as (team' & T' & F'). exists nodes, bs, w, inv, SIG, team, team'. split; [exact T|]. split; [exact T'|]. cbv zeta.
  pose proof (C bt team Hb ltac:(intros; rewrite T; lia)) as CT. pose proof (C bt' team' Hb' ltac:(intros; rewrite T'; lia)) as CT'.
  assert (SG : forall b, (forall k, b k = STICK \/ b k = SYMMETRIC) -> still_gas ex_opt nodes bs w SIG 1 100000 (1 / 100) inv still_svd Phi (fun _ _ => true) true true [4] b m 7).
  { intros b B. split; try reflexivity; try assumption; try discriminate; auto; [|intros _; exact still_svd_right]. intros k _. destruct (B k) as [-> | ->]; discriminate. }
  assert (B : forall k, bt k = STICK \/ bt k = SYMMETRIC) by (intros k; unfold bt; destruct (k =? 0); auto). assert (B' : forall k, bt' k = STICK \/ bt' k = SYMMETRIC) by (intros k; unfold bt'; destruct (k =? 0); auto).
  assert (KK : kills_kernel (fun r : R => (0 < r)%R) ex_opt (ph m) 7).
  { intros M x _ Hx k. cbn. unfold sq_eigabs. destruct (Nat.ltb_spec k 14) as [Hk|Hk]; [|reflexivity]. change (V ex_opt) with 14 in Hx. apply rsum_zero. intros i Hi. rewrite (Hx i Hi). ring. }
  assert (RE : Forall (resting 7) slanted) by (repeat (constructor; [apply still_cell_rests|]); constructor).
  assert (VA : varied [4] slanted) by (exists 1%R, 2%R; split; [lra|]; split; [cbn; lra|]; repeat (constructor; [cbn; lra|]); constructor).
  destruct (gas_run_ends ex_opt nodes bs w SIG 1 100000 (1 / 100) inv (fun q => q) MirrorProps.ex_rates (fun _ => (0, 0, 0)%R) MirrorProps.ex_specrad sq_eigabs None still_svd Phi (fun _ _ => true) true true 1 [4] bt [1%R] team m 7
    svd (fun _ _ _ => Some 1%R) fill (fun _ => false) (1 / 2) 1 tol 1 11 slanted) as (s & E & Et & X); try reflexivity; try (cbn; lra); try exact F; try assumption; try (left; reflexivity); try (apply SG; exact B).
  { split; [lra|]. intros q m' c H. cbn [speed_sum]. specialize (H 0 ltac:(cbn; lia)). injection H as H. rewrite <- H. lra. }
  pose proof CT as [_ GD _ _ _].
  pose proof (gas_ready ex_opt nodes bs w SIG 1 100000 (1 / 100) inv (fun q => q) still_svd Phi (fun _ _ => true) true true 1 [4] bt [1%R] team m 7 (SG bt B) CT) as RD.
  pose proof (gas_ready ex_opt nodes bs w SIG 1 100000 (1 / 100) inv (fun q => q) still_svd Phi (fun _ _ => true) true true 1 [4] bt' [1%R] team' m 7 (SG bt' B') CT') as RD'.
  assert (SH : forall b : nat -> nat, (forall k, b k = STICK \/ b k = SYMMETRIC) -> sharp ex_opt nodes ph 1 (fun r : R => (0 < r)%R) m 7).
  { intros b Hbb. apply (gas_sharp ex_opt nodes bs w SIG 1 100000 (1 / 100) inv MirrorProps.ex_rates (fun _ => (0, 0, 0)%R) MirrorProps.ex_specrad sq_eigabs still_svd Phi (fun _ _ => true) true true 1 [4] b m 7 (SG b Hbb)); try assumption; try (left; reflexivity); cbn; lra. }
  assert (EQ : forall b : nat -> nat, (forall k, b k = STICK \/ b k = SYMMETRIC) -> equilibrium ex_opt (gas_wall ex_opt (fun q => q)) ph (fun _ => None) Phi (fun _ _ => true) ode true true [4] b (fun r : R => (0 < r)%R) m 7 (p_still m 7)).
  { intros b Hbb. apply (gas_equilibrium ex_opt nodes bs w SIG 1 100000 (1 / 100) inv (fun q => q) MirrorProps.ex_rates (fun _ => (0, 0, 0)%R) MirrorProps.ex_specrad sq_eigabs None still_svd Phi (fun _ _ => true) true true [4] b m 7 (SG b Hbb) GD). }
  assert (SO : forall (b : nat -> nat) (g : grid), (forall k, b k = STICK \/ b k = SYMMETRIC) -> length g = 4 -> Forall (resting 7) g -> varied [4] g -> solid ex_opt bs SIG 1 100000 (1 / 100) inv (gas_wall ex_opt (fun q => q)) [4] b (fun r : R => (0 < r)%R) g).
  { intros b g Hbb Lg Rg Vg. apply (gas_solid ex_opt nodes bs w SIG 1 100000 (1 / 100) inv (fun q => q) still_svd Phi (fun _ _ => true) true true [4] b m 7 g (SG b Hbb) GD); assumption. }
  assert (NZ : forall r : R, (0 < r)%R -> r <> 0%R) by (intros; lra).
  pose proof (MirrorProps.run_mirrors_met_1d ex_opt nodes bs w SIG 1 100000 (1 / 100) inv (gas_wall ex_opt (fun q => q)) ph (fun _ => None) Phi (fun _ _ => true) ode true true 1 [1%R] eq_refl eq_refl HT
    svd (fun _ _ _ => Some 1%R) fill fill (fun _ => false) (1 / 2) 1 tol m eq_refl eq_refl (conj (fun _ => eq_refl) Hsvd) 4 bt bt' team team' 11 slanted CT F CT' F' RD RD') as Y.
  rewrite Y; try reflexivity.
  - fold ph ode in E. fold bt. rewrite E. cbn [image_run]. eexists. eexists. split; [reflexivity|]. split; [reflexivity|]. split; [exact Et|]. reflexivity.
  - intros g dt Hg.
    destruct (rest_handed ex_opt nodes bs w SIG 1 100000 (1 / 100) inv (gas_wall ex_opt (fun q => q)) ph (fun _ => None) Phi (fun _ _ => true) ode true true 1 [4] bt [1%R] team (fun r : R => (0 < r)%R) svd (fun _ _ _ => Some 1%R) fill (fun _ => false)
      (1 / 2) 1 tol m 7 (p_still m 7) slanted G NZ eq_refl eq_refl (SH bt B) CT F RD ltac:(discriminate) (EQ bt B) eq_refl RE (SO bt slanted B eq_refl RE VA) g dt Hg) as (Lg & Fg & Sg).
    assert (Rg : Forall (resting 7) g) by (clear - Fg; induction Fg as [|? ? ? ? [? _]]; constructor; auto).
    split.
    + apply (step_met ex_opt nodes bs w SIG 1 100000 (1 / 100) inv (gas_wall ex_opt (fun q => q)) ph (fun _ => None) Phi (fun _ _ => true) ode true true 1 [4] bt [1%R] team G (fun r : R => (0 < r)%R) NZ m 7 (p_still m 7) g dt); try assumption; try discriminate; [right; exact (SH bt B)|exact (EQ bt B)].
    + assert (LI : length (image (mirror ex_opt) (MirrorProps.flipped 4) g) = 4) by (unfold image; rewrite map_length, seq_length; exact Lg).
      assert (VI : Forall (fun q : vec => resting 7 q /\ (1 <= q 0%nat <= 2)%R) (image (mirror ex_opt) (MirrorProps.flipped 4) g)).
      { destruct g as [|g0 [|g1 [|g2 [|g3 [|]]]]]; try discriminate Lg. unfold slanted in Fg.
        assert (Z : forall q q' : vec, (1 <= q 0%nat <= 2)%R -> resting 7 q' /\ q' 0 = q 0 -> resting 7 (mirror ex_opt q') /\ (1 <= mirror ex_opt q' 0%nat <= 2)%R).
        { intros q q' Hq [R0 D]. destruct (mirror_rests q' R0) as [R1 D1]. split; [exact R1|]. rewrite D1, D. exact Hq. }
        inversion Fg as [|? ? ? ? Z0 F0]; subst. inversion F0 as [|? ? ? ? Z1 F1]; subst. inversion F1 as [|? ? ? ? Z2 F2]; subst. inversion F2 as [|? ? ? ? Z3 F3]; subst.
        apply Z in Z0; [|cbn; lra]. apply Z in Z1; [|cbn; lra]. apply Z in Z2; [|cbn; lra]. apply Z in Z3; [|cbn; lra].
        unfold image. cbn [length seq map]. do 4 (constructor; [assumption|]). constructor. }
      apply (step_met ex_opt nodes bs w SIG 1 100000 (1 / 100) inv (gas_wall ex_opt (fun q => q)) ph (fun _ => None) Phi (fun _ _ => true) ode true true 1 [4] bt' [1%R] team' G (fun r : R => (0 < r)%R) NZ m 7 (p_still m 7) _ dt); try assumption; try discriminate; [right; exact (SH bt' B')|exact (EQ bt' B')|..].
      * eapply Forall_impl; [|exact VI]. intros q [? _]. assumption.
      * apply SO; try assumption; [eapply Forall_impl; [|exact VI]; intros q [? _]; assumption|]. exists 1%R, 2%R. split; [lra|]. split; [cbn; lra|]. eapply Forall_impl; [|exact VI]. intros q [_ ?]. assumption.
  - split; [|split; [|split]].
    + apply code_mirrors; try reflexivity.
      * intros t M Ht. unfold MirrorProps.ex_specrad. f_equal. rewrite !(Rmult_comm (t _) (M _ _)), !Rmult_assoc, !Ht. ring.
      * intros _ M M' x. apply sq_mirror.
    + discriminate.
    + intros ty [<-|[<-|[]]] q; unfold at_numbers, gas_wall, bt; cbn [option_map val Nat.eqb].
      * apply stick_wall_keeps. discriminate.
      * rewrite !symmetric_wall by reflexivity. reflexivity.
    + intros h. apply relaxation_handless; try reflexivity. exact still_handless.
Qed.
Print Assumptions rest_handed.
Print Assumptions rest_handed_met.
