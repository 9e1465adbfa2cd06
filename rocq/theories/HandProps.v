(** C91 for whole runs of one material, when the functions handed over give numbers at the states the run meets and perhaps at no others. *)
From Coq Require Import Reals Lia Lra ZArith.
From Verif Require Import Base Options Sum Mat3 EqModel FvModel FvBody FvSpec PolyModel WenoModel WenoSpec WenoProof WenoProps DgModel DgSpec DgProof2 DgProps GridModel GridSpec GridProof GridProps StepperModel AderModel
  UtilsModel UtilsProof UtilsProps IterModel IterSpec IterProof2 IterProps Split3Props SafeProof RunModel RunProof RunProof2 RunProps RunProof3 RunProof4 Run2Props RefSpec RefProof RefProof3 RefProof4 RefProof5 RefProps MirrorProof5 AderProof3 AderProof4 RestSpec RestProof RestProof2 RestProof3 RestProof4 RestProof5 RestProps SymGasProps.
From Verif Require MirrorProps.
Import List ListNotations.
Open Scope string_scope.
Open Scope nat_scope.

(** two solvers that agree on the states the first run hands over give the same run *)
Lemma run_agree o svd speed fill fill' advance advance' nan ROT dX CFL tf tol m k : LSET o = 0 -> mp_void m = false -> forall fuel s, (exists g0, s_grids s = [g0]) -> s_masks s = [k] ->
  (forall g dt, handed o svd speed fill advance nan ROT dX CFL tf tol m s g dt -> advance' m g k dt = advance m g k dt) ->
  run o svd speed fill' advance' nan ROT dX CFL tf tol [m] fuel s = run o svd speed fill advance nan ROT dX CFL tf tol [m] fuel s.
Proof.
  intros HL HM. induction fuel as [|fuel IH]; intros s [g0 EG] EM H; cbn [run]; destruct (Rlt_dec (s_t s) tf) as [Lt|Lt]; try reflexivity.
  assert (ET : turn o svd speed fill' advance' nan ROT dX CFL tf tol [m] s = turn o svd speed fill advance nan ROT dX CFL tf tol [m] s).
  { rewrite (turn_single o svd speed fill' advance' nan ROT dX CFL tf tol m HL HM s g0 _ EG EM), (turn_single o svd speed fill advance nan ROT dX CFL tf tol m HL HM s g0 _ EG EM).
    destruct (timestep speed [m] [s_u s] [k] dX CFL (s_t s) tf (s_count s) 1) as [[dt|]| | |] eqn:ED; cbn [bind]; try reflexivity.
    rewrite (H (s_u s) dt); [reflexivity|]. exact (handed_now o svd speed fill advance nan ROT dX CFL tf tol m s _ dt k Lt EM ED eq_refl). }
  rewrite ET. destruct (turn o svd speed fill advance nan ROT dX CFL tf tol [m] s) as [[s'|s']| | |] eqn:E; cbn [bind]; try reflexivity.
  assert (Y : (exists g1, s_grids s' = [g1]) /\ s_masks s' = [k]).
  { rewrite (turn_single o svd speed fill advance nan ROT dX CFL tf tol m HL HM s g0 _ EG EM) in E. apply bind_ok in E. destruct E as ([d|] & ED & ER); [|discriminate].
    apply bind_ok in ER. destruct ER as (u1 & EA & ER). apply bind_ok in ER. destruct ER as (u' & EP & ER). apply bind_ok in ER. destruct ER as ([ret push] & EW & ER). destruct (nan u').
    - apply bind_ok in ER. destruct ER as (r1 & W1 & ER). apply bind_ok in ER. destruct ER as (r2 & W2 & ER). discriminate.
    - injection ER as <-. cbn [s_grids s_masks]. eauto. }
  destruct Y as [Y1 Y2]. apply IH; try assumption. intros g dt Hg. apply H. exact (handed_later o svd speed fill advance nan ROT dX CFL tf tol m s g dt s' Lt E Hg).
Qed.

Section Run.
Variable o : options.
Variables NODES WGHTS : nat -> R.
Variable ENDVALS DERVALS : nat -> nat -> R.
Variables (SIG : nat -> nat -> R) (LAMS LAMC EPS : R) (inv : stencil -> (nat -> R) -> nat -> R).
Variable wallf : nat -> nat -> num -> num.
Variable ph : matpar -> phys.
Variable prim : matpar -> option ((num -> num) * (num -> num)).
Variable Phi : matpar -> R -> nat -> list num -> res (option (nat -> option nodal)).
Variable valid : matpar -> nodal -> bool.
Variable ode : matpar -> R -> num -> num.
Variables (SPLIT HALF_STEP : bool) (FLUX : nat).
Variables (nX : list nat) (bt : nat -> nat) (dX : list R) (team : matpar -> grid -> list bool -> R -> nat * list nat).
Notation cells := (fold_right Nat.mul 1 nX).
Notation stepped := (stepped o NODES WGHTS ENDVALS DERVALS SIG LAMS LAMC EPS inv wallf ph prim Phi ode SPLIT HALF_STEP FLUX nX bt dX).
(** The program, with its threads, ghost cells, masks and buffers, is the loop around the formula, if the functions handed over give numbers at the states that loop hands over. *)
Theorem run_computes_met svd speed fill fill' nan ROT CFL tf tol m nodes bs fuel (u : grid) : configured o Phi SPLIT FLUX nX bt dX team ->
  finishing o NODES WGHTS ENDVALS DERVALS SIG LAMS LAMC EPS inv wallf ph prim Phi valid ode SPLIT HALF_STEP FLUX nX bt dX team -> (length nX = 2 -> NO_CORNERS o = false) -> VISCOUS o = true -> LSET o = 0 -> mp_void m = false ->
  ready o SIG LAMS LAMC EPS inv wallf prim nX bt m nodes bs -> length u = cells ->
  (forall g dt, handed o svd speed fill (fun m g k dt => Ok (stepped m g k dt)) nan ROT dX CFL tf tol m (init [m] u) g dt ->
     met o NODES WGHTS ENDVALS DERVALS SIG LAMS LAMC EPS inv wallf ph prim Phi valid ode SPLIT HALF_STEP FLUX nX bt dX m g (repeat true cells) dt) ->
  program o NODES WGHTS ENDVALS DERVALS SIG LAMS LAMC EPS inv wallf ph prim Phi valid ode SPLIT HALF_STEP FLUX nX bt dX team svd speed fill' nan ROT CFL tf tol [m] fuel u
  = iterator o svd speed fill (fun m g k dt => Ok (stepped m g k dt)) nan ROT dX CFL tf tol [m] fuel u.
Proof using.
  intros HC HF HNC HV HL HM HR Lu HMt. unfold program, iterator. apply (run_agree o svd speed fill fill' _ _ nan ROT dX CFL tf tol m (repeat true cells) HL HM).
  - exists u. reflexivity.
  - cbn [init s_masks repeat length]. rewrite Lu. reflexivity.
  - intros g dt Hg. destruct (handed_keeps o svd speed fill (fun m g k dt => Ok (stepped m g k dt)) nan ROT dX CFL tf tol m (fun _ => True) cells HL HM) with (s := init [m] u) (g := g) (dt := dt) as [_ Lg]; try assumption; try exact I.
    + intros v c h u1 u' _ Lv EA EP. split; [exact I|]. injection EA as <-. destruct (post_returns o svd ROT tol m HL (S c) (stepped m v (repeat true cells) h) HV) as (w & E & Lw). rewrite E in EP. injection EP as <-.
      rewrite Lw. apply (stepped_length o NODES WGHTS ENDVALS DERVALS SIG LAMS LAMC EPS inv wallf ph prim Phi ode SPLIT HALF_STEP FLUX nX bt dX team HC).
    + exists u. reflexivity.
    + cbn [init s_masks repeat length]. rewrite Lu. reflexivity.
    + apply (step_computes_met o NODES WGHTS ENDVALS DERVALS SIG LAMS LAMC EPS inv wallf ph prim Phi valid ode SPLIT HALF_STEP FLUX nX bt dX team HC HF HNC nodes bs); [exact HR|exact (HMt g dt Hg)|exact Lg|apply repeat_length].
Qed.
(** So it is if they give numbers at the states the program itself hands over. *)
Theorem run_computes_met_program svd speed fill fill' nan ROT CFL tf tol m nodes bs fuel (u : grid) : configured o Phi SPLIT FLUX nX bt dX team ->
  finishing o NODES WGHTS ENDVALS DERVALS SIG LAMS LAMC EPS inv wallf ph prim Phi valid ode SPLIT HALF_STEP FLUX nX bt dX team -> (length nX = 2 -> NO_CORNERS o = false) -> VISCOUS o = true -> LSET o = 0 -> mp_void m = false ->
  ready o SIG LAMS LAMC EPS inv wallf prim nX bt m nodes bs -> length u = cells ->
  (forall g dt, handed o svd speed fill (run_advance o NODES WGHTS ENDVALS DERVALS SIG LAMS LAMC EPS inv wallf ph prim Phi valid ode SPLIT HALF_STEP FLUX nX bt dX team) nan ROT dX CFL tf tol m (init [m] u) g dt ->
     met o NODES WGHTS ENDVALS DERVALS SIG LAMS LAMC EPS inv wallf ph prim Phi valid ode SPLIT HALF_STEP FLUX nX bt dX m g (repeat true cells) dt) ->
  program o NODES WGHTS ENDVALS DERVALS SIG LAMS LAMC EPS inv wallf ph prim Phi valid ode SPLIT HALF_STEP FLUX nX bt dX team svd speed fill nan ROT CFL tf tol [m] fuel u
  = iterator o svd speed fill' (fun m g k dt => Ok (stepped m g k dt)) nan ROT dX CFL tf tol [m] fuel u.
Proof using.
  intros HC HF HNC HV HL HM HR Lu HMt. unfold program, iterator. symmetry. apply (run_agree o svd speed fill fill' _ _ nan ROT dX CFL tf tol m (repeat true cells) HL HM).
  - exists u. reflexivity.
  - cbn [init s_masks repeat length]. rewrite Lu. reflexivity.
  - intros g dt Hg. destruct (handed_keeps o svd speed fill (run_advance o NODES WGHTS ENDVALS DERVALS SIG LAMS LAMC EPS inv wallf ph prim Phi valid ode SPLIT HALF_STEP FLUX nX bt dX team) nan ROT dX CFL tf tol m (fun _ => True) cells HL HM)
      with (s := init [m] u) (g := g) (dt := dt) as [_ Lg]; try assumption; try exact I.
    + intros v c h u1 u' _ Lv EA EP. split; [exact I|]. pose proof HC as [C1 C2 C3 C4 C5].
      assert (AR : (exists g', run_advance o NODES WGHTS ENDVALS DERVALS SIG LAMS LAMC EPS inv wallf ph prim Phi valid ode SPLIT HALF_STEP FLUX nX bt dX team m v (repeat true cells) h = Ok g' /\ length g' = length v) \/
        run_advance o NODES WGHTS ENDVALS DERVALS SIG LAMS LAMC EPS inv wallf ph prim Phi valid ode SPLIT HALF_STEP FLUX nX bt dX team m v (repeat true cells) h = Throw "NaN" \/
        run_advance o NODES WGHTS ENDVALS DERVALS SIG LAMS LAMC EPS inv wallf ph prim Phi valid ode SPLIT HALF_STEP FLUX nX bt dX team m v (repeat true cells) h = NoFuel) by (apply advance_returns; try assumption; rewrite ?repeat_length, (cells_ext o nX C2); auto).
      destruct AR as [(g' & E & L)|[E|E]];
        rewrite EA in E; try discriminate. injection E as <-.
      destruct (post_returns o svd ROT tol m HL (S c) u1 HV) as (w & E & Lw). rewrite E in EP. injection EP as <-. lia.
    + exists u. reflexivity.
    + cbn [init s_masks repeat length]. rewrite Lu. reflexivity.
    + symmetry. apply (step_computes_met o NODES WGHTS ENDVALS DERVALS SIG LAMS LAMC EPS inv wallf ph prim Phi valid ode SPLIT HALF_STEP FLUX nX bt dX team HC HF HNC nodes bs); [exact HR|exact (HMt g dt Hg)|exact Lg|apply repeat_length].
Qed.
(** C84: then the run completes, if the wave speeds are bounded. *)
Theorem run_completes_met svd speed fill nan ROT CFL tf tol m nodes bs M fuel (u : grid) : configured o Phi SPLIT FLUX nX bt dX team ->
  finishing o NODES WGHTS ENDVALS DERVALS SIG LAMS LAMC EPS inv wallf ph prim Phi valid ode SPLIT HALF_STEP FLUX nX bt dX team -> (length nX = 2 -> NO_CORNERS o = false) -> LSET o = 0 -> mp_void m = false ->
  ready o SIG LAMS LAMC EPS inv wallf prim nX bt m nodes bs -> length u = cells ->
  (forall g dt, handed o svd speed fill (run_advance o NODES WGHTS ENDVALS DERVALS SIG LAMS LAMC EPS inv wallf ph prim Phi valid ode SPLIT HALF_STEP FLUX nX bt dX team) nan ROT dX CFL tf tol m (init [m] u) g dt ->
     met o NODES WGHTS ENDVALS DERVALS SIG LAMS LAMC EPS inv wallf ph prim Phi valid ode SPLIT HALF_STEP FLUX nX bt dX m g (repeat true cells) dt) ->
  (0 < CFL)%R -> (0 < tf)%R -> (forall g, nan g = false) -> slow dX speed M -> (tf < INR fuel * (CFL / M / 5))%R ->
  exists s, program o NODES WGHTS ENDVALS DERVALS SIG LAMS LAMC EPS inv wallf ph prim Phi valid ode SPLIT HALF_STEP FLUX nX bt dX team svd speed fill nan ROT CFL tf tol [m] fuel u = Ok (s, false) /\
    s_t s = tf /\ bdat (s_ret s) 99 = Some (s_u s, tf).
Proof using.
  intros HC HF HNC HL HM HR Lu HMt H1 H2 H3 HS HFu. pose proof HC as [[HV _] _ _ _ _].
  rewrite (run_computes_met_program svd speed fill fill nan ROT CFL tf tol m nodes bs fuel u HC HF HNC HV HL HM HR Lu HMt). unfold iterator.
  destruct (run_ends o svd speed fill (fun m g k dt => Ok (stepped m g k dt)) nan ROT dX CFL tf tol m HL HM (fun g => length g = cells) False cells M HV H1 H2 H3 (proj1 HS) (slow_rate dX speed M HS) ltac:(auto)) with (fuel := fuel) (s := init [m] u) as [[s E]|[[] _]].
  - intros g dt Lg. left. eexists. split; [reflexivity|]. intros c u' EP. destruct (post_returns o svd ROT tol m HL c (stepped m g (repeat true cells) dt) HV) as (x & X & LX). rewrite EP in X. injection X as <-. rewrite LX.
    apply (stepped_length o NODES WGHTS ENDVALS DERVALS SIG LAMS LAMC EPS inv wallf ph prim Phi ode SPLIT HALF_STEP FLUX nX bt dX team HC).
  - apply inv_init; assumption.
  - exact Lu.
  - exists u. reflexivity.
  - cbn [init s_masks length repeat]. rewrite Lu. reflexivity.
  - right. cbn [init s_t]. lra.
  - exists s. split; [exact E|]. apply (run_ends_at_final_time o svd speed fill (fun m g k dt => Ok (stepped m g k dt)) nan ROT dX CFL tf tol [m] u fuel s H1 H2 E).
Qed.
End Run.

(** The gas of C99 with Roe's flux and the relaxation of the code, three threads: the loop around the formula ends at time 1 and the program gives the same. *)
Example gas_computes_case Phi svd fill fill' tol : let m := MirrorProps.ex_gas in
  exists nodes bs w inv SIG team, (forall m g k dt, fst (team m g k dt) = 3) /\
  let ph := gas_phys ex_opt MirrorProps.ex_rates (fun _ => (0, 0, 0)%R) MirrorProps.ex_specrad still_eigabs in let ode := gas_ode ex_opt MirrorProps.ex_rates (fun _ => (0, 0, 0)%R) None still_svd in
  exists s, iterator ex_opt svd (fun _ _ _ => Some 1%R) fill' (fun m g k dt => Ok (stepped ex_opt (fun k => nth k nodes 0%R) w (end_values bs) (Dv bs nodes) SIG 1 100000 (1 / 100) inv (gas_wall ex_opt (fun q => q)) ph (fun _ => None) Phi ode true true 1 [4] (fun _ => 1) [1%R] m g k dt))
      (fun _ => false) false [1%R] (1 / 2) 1 tol [m] 11 still_line = Ok (s, false) /\ s_t s = 1%R /\
    program ex_opt (fun k => nth k nodes 0%R) w (end_values bs) (Dv bs nodes) SIG 1 100000 (1 / 100) inv (gas_wall ex_opt (fun q => q)) ph (fun _ => None) Phi (fun _ _ => true) ode true true 1 [4] (fun _ => 1) [1%R] team
      svd (fun _ _ _ => Some 1%R) fill (fun _ => false) false (1 / 2) 1 tol [m] 11 still_line = Ok (s, false).
Proof.
  intros m. destruct dg_basis_hyps as [nodes [bs [w [G L]]]]. pose proof G as [Dn [Bn _]]. destruct (weno_hyps nodes Dn ltac:(lia)) as [bs' [inv [SIG HW]]].
  pose proof HW as [_ [Bn' _]]. rewrite Bn in Bn'. injection Bn' as <-.
  assert (C : forall team : matpar -> grid -> list bool -> R -> nat * list nat, (forall m g k dt, 0 < fst (team m g k dt)) -> configured ex_opt Phi true 1 [4] (fun _ => 1) [1%R] team).
  { intros team T. split.
    - split; [reflexivity|]. split; [lia|]. split; cbn; lra.
    - left. exists 4. split; [reflexivity|]. cbn. lia.
    - intros k Hk. lia.
    - intros. apply T.
    - discriminate. }
  set (ode := gas_ode ex_opt MirrorProps.ex_rates (fun _ => (0, 0, 0)%R) None still_svd). set (ph := gas_phys ex_opt MirrorProps.ex_rates (fun _ => (0, 0, 0)%R) MirrorProps.ex_specrad still_eigabs).
  assert (FE : forall p, 0 < p -> exists team, (forall m g k dt, fst (team m g k dt) = p) /\
     finishing ex_opt (fun k => nth k nodes 0%R) w (end_values bs) (Dv bs nodes) SIG 1 100000 (1 / 100) inv (gas_wall ex_opt (fun q => q)) ph (fun _ => None) Phi (fun _ _ => true) ode true true 1 [4] (fun _ => 1) [1%R] team).
  { intros p Hp. apply (finishing_exists ex_opt (fun k => nth k nodes 0%R) w (end_values bs) (Dv bs nodes) SIG 1 100000 (1 / 100) inv (gas_wall ex_opt (fun q => q)) ph (fun _ => None) Phi (fun _ _ => true) ode true true 1 [4] (fun _ => 1) [1%R]
      (fun _ _ _ _ => p)); [auto|]. apply (C (fun _ _ _ _ => (p, []))). intros. exact Hp. }
  destruct (FE 3 ltac:(lia)) as (team & T & F). exists nodes, bs, w, inv, SIG, team. split; [exact T|].
  pose proof (C team ltac:(intros; rewrite T; lia)) as CT.
  assert (SG : still_gas ex_opt nodes bs w SIG 1 100000 (1 / 100) inv still_svd Phi (fun _ _ => true) true true [4] (fun _ => 1) m 7).
  { split; try reflexivity; try assumption; try discriminate; auto. intros _. exact still_svd_right. }
  assert (KK : kills_kernel (fun r : R => (0 < r)%R) ex_opt (ph m) 7).
  { intros M x _ Hx k. cbn. unfold still_eigabs. destruct (Nat.ltb_spec k 14) as [Hk|Hk]; [|reflexivity]. change (V ex_opt) with 14 in Hx. rewrite (Hx k Hk). apply Rabs_R0. }
  assert (RE : Forall (resting 7) still_line) by (repeat (constructor; [apply still_cell_rests|]); constructor).
  assert (VA : varied [4] still_line) by (exists 1%R, 2%R; split; [lra|]; split; [cbn; lra|]; repeat (constructor; [cbn; lra|]); constructor).
  destruct (gas_run_ends ex_opt nodes bs w SIG 1 100000 (1 / 100) inv (fun q => q) MirrorProps.ex_rates (fun _ => (0, 0, 0)%R) MirrorProps.ex_specrad still_eigabs None still_svd Phi (fun _ _ => true) true true 1 [4] (fun _ => 1) [1%R] team m 7
    svd (fun _ _ _ => Some 1%R) fill (fun _ => false) (1 / 2) 1 tol 1 11 still_line) as (s & E & Et & X); try reflexivity; try (cbn; lra); try exact F; try assumption; try (left; reflexivity).
  { split; [lra|]. intros q m' c H. cbn [speed_sum]. specialize (H 0 ltac:(cbn; lia)). injection H as H. rewrite <- H. lra. }
  pose proof CT as [_ GD _ _ _].
  pose proof (gas_ready ex_opt nodes bs w SIG 1 100000 (1 / 100) inv (fun q => q) still_svd Phi (fun _ _ => true) true true 1 [4] (fun _ => 1) [1%R] team m 7 SG CT) as RD.
  pose proof (rest_handed_met ex_opt nodes bs w SIG 1 100000 (1 / 100) inv (gas_wall ex_opt (fun q => q)) ph (fun _ => None) Phi (fun _ _ => true) ode true true 1 [4] (fun _ => 1) [1%R] team (fun r : R => (0 < r)%R) svd (fun _ _ _ => Some 1%R) fill (fun _ => false)
    (1 / 2) 1 tol m 7 (p_still m 7) still_line G ltac:(intros; lra) eq_refl eq_refl) as MH.
  exists s. split; [|split; [exact Et|exact E]]. rewrite <- E. symmetry. fold ph ode.
  apply (run_computes_met_program ex_opt (fun k => nth k nodes 0%R) w (end_values bs) (Dv bs nodes) SIG 1 100000 (1 / 100) inv (gas_wall ex_opt (fun q => q)) ph (fun _ => None) Phi (fun _ _ => true) ode true true 1 [4] (fun _ => 1) [1%R] team)
    with (nodes := nodes) (bs := bs); try reflexivity; try assumption; try discriminate.
  - apply MH; try assumption; try reflexivity; try discriminate.
    + apply (gas_sharp ex_opt nodes bs w SIG 1 100000 (1 / 100) inv MirrorProps.ex_rates (fun _ => (0, 0, 0)%R) MirrorProps.ex_specrad still_eigabs still_svd Phi (fun _ _ => true) true true 1 [4] (fun _ => 1) m 7 SG); try assumption; try (left; reflexivity); cbn; lra.
    + apply (gas_equilibrium ex_opt nodes bs w SIG 1 100000 (1 / 100) inv (fun q => q) MirrorProps.ex_rates (fun _ => (0, 0, 0)%R) MirrorProps.ex_specrad still_eigabs None still_svd Phi (fun _ _ => true) true true [4] (fun _ => 1) m 7 SG GD).
    + apply (gas_solid ex_opt nodes bs w SIG 1 100000 (1 / 100) inv (fun q => q) still_svd Phi (fun _ _ => true) true true [4] (fun _ => 1) m 7 still_line SG GD); try assumption. reflexivity.
Qed.
Print Assumptions run_computes_met.
Print Assumptions run_computes_met_program.
Print Assumptions run_completes_met.
