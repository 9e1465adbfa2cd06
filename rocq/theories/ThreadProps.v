(** C16 for whole runs of one material: the number of threads, and the order in which they work, do not show in the result. *)
From Coq Require Import Reals Lia Lra ZArith.
From Verif Require Import FmmModel FmmSpec LevelSetModel FillModel FillProof3 FillProps MFillSpec MFillProof2 MFillProps MRunModel MRunProof MRunProof2 MRunProps 
  Base Options Sum Mat3 EqModel FvModel FvBody FvSpec PolyModel WenoModel WenoSpec WenoProof WenoProps DgModel DgSpec DgProof2 DgProps GridModel GridSpec GridProof GridProps StepperModel AderModel
  UtilsModel UtilsProof UtilsProps IterModel IterSpec IterProof2 IterProps Split3Props SafeProof RunModel RunProof RunProof2 RunProps RunProof3 RunProof4 Run2Props RefSpec RefProof RefProof3 RefProof4 RefProof5 RefProps MirrorProof5 AderProof3 AderProof4 RestSpec RestProof RestProof2 RestProof3 RestProof4 RestProof5 RestProps SymGasProps HandProps.
From Verif Require MirrorProps.
Import List ListNotations.
Open Scope string_scope.
Open Scope nat_scope.

Section Run.
Variable o : options.
Variables NODES WGHTS : nat -> R.
Variable ENDVALS DERVALS : nat -> nat -> R.
Variables (SIG : nat -> nat -> R) (LAMS LAMC EPS : R) (inv : stencil -> (nat -> R) -> nat -> R).
Variable wallf : nat -> nat -> num -> num.
Variable ph : matpar -> phys.
Variable prim : matpar -> option ((num -> num) * (num -> num)).
Variable Phi : matpar -> R -> nat -> list num -> res (option (nat -> option nodal)).
Variable valid : matpar -> nodal -> bool.
Variable ode : matpar -> R -> num -> num.
Variables (SPLIT HALF_STEP : bool) (FLUX : nat).
Variables (nX : list nat) (bt : nat -> nat) (dX : list R) (team team' : matpar -> grid -> list bool -> R -> nat * list nat).
Notation cells := (fold_right Nat.mul 1 nX).
Notation stepped := (stepped o NODES WGHTS ENDVALS DERVALS SIG LAMS LAMC EPS inv wallf ph prim Phi ode SPLIT HALF_STEP FLUX nX bt dX).
Lemma handed_length svd speed fill nan ROT CFL tf tol m (u : grid) : configured o Phi SPLIT FLUX nX bt dX team -> VISCOUS o = true -> LSET o = 0 -> mp_void m = false -> length u = cells ->
  forall g dt, handed o svd speed fill (run_advance o NODES WGHTS ENDVALS DERVALS SIG LAMS LAMC EPS inv wallf ph prim Phi valid ode SPLIT HALF_STEP FLUX nX bt dX team) nan ROT dX CFL tf tol m (init [m] u) g dt -> length g = cells.
Proof using.
  intros HC HV HL HM Lu g dt Hg.
  destruct (handed_keeps o svd speed fill (run_advance o NODES WGHTS ENDVALS DERVALS SIG LAMS LAMC EPS inv wallf ph prim Phi valid ode SPLIT HALF_STEP FLUX nX bt dX team) nan ROT dX CFL tf tol m (fun _ => True) cells HL HM)
      with (s := init [m] u) (g := g) (dt := dt) as [_ Lg]; try assumption; try exact I.
  - intros v c h u1 u' _ Lv EA EP. split; [exact I|]. pose proof HC as [C1 C2 C3 C4 C5].
      assert (AR : (exists g', run_advance o NODES WGHTS ENDVALS DERVALS SIG LAMS LAMC EPS inv wallf ph prim Phi valid ode SPLIT HALF_STEP FLUX nX bt dX team m v (repeat true cells) h = Ok g' /\ length g' = length v) \/
        run_advance o NODES WGHTS ENDVALS DERVALS SIG LAMS LAMC EPS inv wallf ph prim Phi valid ode SPLIT HALF_STEP FLUX nX bt dX team m v (repeat true cells) h = Throw "NaN" \/
        run_advance o NODES WGHTS ENDVALS DERVALS SIG LAMS LAMC EPS inv wallf ph prim Phi valid ode SPLIT HALF_STEP FLUX nX bt dX team m v (repeat true cells) h = NoFuel) by (apply advance_returns; try assumption; rewrite ?repeat_length, (cells_ext o nX C2); auto).
      destruct AR as [(g' & E & L)|[E|E]];
        rewrite EA in E; try discriminate. injection E as <-.
      destruct (post_returns o svd ROT tol m HL (S c) u1 HV) as (w & E & Lw). rewrite E in EP. injection EP as <-. lia.
  - exists u. reflexivity.
  - cbn [init s_masks repeat length]. rewrite Lu. reflexivity.
Qed.
(** Two runs that differ in their thread counts and schedules alone, and in what is used at interfaces only, end alike: with the same buffer of snapshots, the same times, or the same failure. *)
Theorem run_thread_count_partial svd speed fill fill' nan ROT CFL tf tol m nodes bs fuel (u : grid) : configured o Phi SPLIT FLUX nX bt dX team -> configured o Phi SPLIT FLUX nX bt dX team' ->
  finishing o NODES WGHTS ENDVALS DERVALS SIG LAMS LAMC EPS inv wallf ph prim Phi valid ode SPLIT HALF_STEP FLUX nX bt dX team -> finishing o NODES WGHTS ENDVALS DERVALS SIG LAMS LAMC EPS inv wallf ph prim Phi valid ode SPLIT HALF_STEP FLUX nX bt dX team' ->
  (length nX = 2 -> NO_CORNERS o = false) -> VISCOUS o = true -> LSET o = 0 -> mp_void m = false ->
  ready o SIG LAMS LAMC EPS inv wallf prim nX bt m nodes bs -> length u = cells ->
  (forall g dt, handed o svd speed fill (run_advance o NODES WGHTS ENDVALS DERVALS SIG LAMS LAMC EPS inv wallf ph prim Phi valid ode SPLIT HALF_STEP FLUX nX bt dX team) nan ROT dX CFL tf tol m (init [m] u) g dt ->
     met o NODES WGHTS ENDVALS DERVALS SIG LAMS LAMC EPS inv wallf ph prim Phi valid ode SPLIT HALF_STEP FLUX nX bt dX m g (repeat true cells) dt) ->
  program o NODES WGHTS ENDVALS DERVALS SIG LAMS LAMC EPS inv wallf ph prim Phi valid ode SPLIT HALF_STEP FLUX nX bt dX team' svd speed fill' nan ROT CFL tf tol [m] fuel u
  = program o NODES WGHTS ENDVALS DERVALS SIG LAMS LAMC EPS inv wallf ph prim Phi valid ode SPLIT HALF_STEP FLUX nX bt dX team svd speed fill nan ROT CFL tf tol [m] fuel u.
Proof using.
  intros HC HC' HF HF' HNC HV HL HM HR Lu HMt. unfold program, iterator. apply (run_agree o svd speed fill fill' _ _ nan ROT dX CFL tf tol m (repeat true cells) HL HM).
  - exists u. reflexivity.
  - cbn [init s_masks repeat length]. rewrite Lu. reflexivity.
  - intros g dt Hg. pose proof (handed_length svd speed fill nan ROT CFL tf tol m u HC HV HL HM Lu g dt Hg) as Lg.
    rewrite (step_computes_met o NODES WGHTS ENDVALS DERVALS SIG LAMS LAMC EPS inv wallf ph prim Phi valid ode SPLIT HALF_STEP FLUX nX bt dX team' HC' HF' HNC nodes bs m g _ dt HR (HMt g dt Hg) Lg (repeat_length _ _)).
    symmetry. exact (step_computes_met o NODES WGHTS ENDVALS DERVALS SIG LAMS LAMC EPS inv wallf ph prim Phi valid ode SPLIT HALF_STEP FLUX nX bt dX team HC HF HNC nodes bs m g _ dt HR (HMt g dt Hg) Lg (repeat_length _ _)).
Qed.
(** So do runs of several materials, when the functions handed over give numbers on all numbers. *)
Theorem run_thread_count_materials_partial svd speed star nan ROT CFL tf tol MPs nodes bs fuel (u : grid) : configured o Phi SPLIT FLUX nX bt dX team -> configured o Phi SPLIT FLUX nX bt dX team' ->
  finishing o NODES WGHTS ENDVALS DERVALS SIG LAMS LAMC EPS inv wallf ph prim Phi valid ode SPLIT HALF_STEP FLUX nX bt dX team -> finishing o NODES WGHTS ENDVALS DERVALS SIG LAMS LAMC EPS inv wallf ph prim Phi valid ode SPLIT HALF_STEP FLUX nX bt dX team' ->
  (length nX = 2 -> NO_CORNERS o = false) -> (forall m, In m MPs -> numeric o SIG LAMS LAMC EPS inv wallf prim Phi valid ode SPLIT HALF_STEP nX bt m nodes bs) -> length u = cells ->
  program o NODES WGHTS ENDVALS DERVALS SIG LAMS LAMC EPS inv wallf ph prim Phi valid ode SPLIT HALF_STEP FLUX nX bt dX team' svd speed (run_fill o star nX dX MPs) nan ROT CFL tf tol MPs fuel u
  = program o NODES WGHTS ENDVALS DERVALS SIG LAMS LAMC EPS inv wallf ph prim Phi valid ode SPLIT HALF_STEP FLUX nX bt dX team svd speed (run_fill o star nX dX MPs) nan ROT CFL tf tol MPs fuel u.
Proof using.
  intros HC HC' HF HF' HNC HNu Lu.
  rewrite (run_computes o NODES WGHTS ENDVALS DERVALS SIG LAMS LAMC EPS inv wallf ph prim Phi valid ode SPLIT HALF_STEP FLUX nX bt dX team HC HF HNC svd speed star nan ROT CFL tf tol MPs nodes bs fuel u HNu Lu).
  exact (run_computes o NODES WGHTS ENDVALS DERVALS SIG LAMS LAMC EPS inv wallf ph prim Phi valid ode SPLIT HALF_STEP FLUX nX bt dX team' HC' HF' HNC svd speed star nan ROT CFL tf tol MPs nodes bs fuel u HNu Lu).
Qed.
End Run.

(** The gas of C99 with Roe's flux and the relaxation of the code, on five threads and on one: both runs end at time 1, in the same state. *)
Example thread_count_case Phi svd fill fill' tol : let m := MirrorProps.ex_gas in
  exists nodes bs w inv SIG team team', (forall m g k dt, fst (team m g k dt) = 5) /\ (forall m g k dt, fst (team' m g k dt) = 1) /\
  let ph := gas_phys ex_opt MirrorProps.ex_rates (fun _ => (0, 0, 0)%R) MirrorProps.ex_specrad still_eigabs in let ode := gas_ode ex_opt MirrorProps.ex_rates (fun _ => (0, 0, 0)%R) None still_svd in
  let prog team fill := program ex_opt (fun k => nth k nodes 0%R) w (end_values bs) (Dv bs nodes) SIG 1 100000 (1 / 100) inv (gas_wall ex_opt (fun q => q)) ph (fun _ => None) Phi (fun _ _ => true) ode true true 1 [4] (fun _ => 1) [1%R] team
      svd (fun _ _ _ => Some 1%R) fill (fun _ => false) false (1 / 2) 1 tol [m] 11 still_line in
  exists s, prog team fill = Ok (s, false) /\ s_t s = 1%R /\ prog team' fill' = Ok (s, false).
Proof.
  intros m. destruct dg_basis_hyps as [nodes [bs [w [G L]]]]. pose proof G as [Dn [Bn _]]. destruct (weno_hyps nodes Dn ltac:(lia)) as [bs' [inv [SIG HW]]].
  pose proof HW as [_ [Bn' _]]. rewrite Bn in Bn'. injection Bn' as <-.
  assert (C : forall team : matpar -> grid -> list bool -> R -> nat * list nat, (forall m g k dt, 0 < fst (team m g k dt)) -> configured ex_opt Phi true 1 [4] (fun _ => 1) [1%R] team).
  { intros team T. split.
    - split; [reflexivity|]. split; [lia|]. split; cbn; lra.
    - left. exists 4. split; [reflexivity|]. cbn. lia.
    - intros k Hk. lia.
    - intros. apply T.
    - discriminate. }
  set (ode := gas_ode ex_opt MirrorProps.ex_rates (fun _ => (0, 0, 0)%R) None still_svd). set (ph := gas_phys ex_opt MirrorProps.ex_rates (fun _ => (0, 0, 0)%R) MirrorProps.ex_specrad still_eigabs).
  assert (FE : forall p, 0 < p -> exists team, (forall m g k dt, fst (team m g k dt) = p) /\
     finishing ex_opt (fun k => nth k nodes 0%R) w (end_values bs) (Dv bs nodes) SIG 1 100000 (1 / 100) inv (gas_wall ex_opt (fun q => q)) ph (fun _ => None) Phi (fun _ _ => true) ode true true 1 [4] (fun _ => 1) [1%R] team).
  { intros p Hp. apply (finishing_exists ex_opt (fun k => nth k nodes 0%R) w (end_values bs) (Dv bs nodes) SIG 1 100000 (1 / 100) inv (gas_wall ex_opt (fun q => q)) ph (fun _ => None) Phi (fun _ _ => true) ode true true 1 [4] (fun _ => 1) [1%R]
      (fun _ _ _ _ => p)); [auto|]. apply (C (fun _ _ _ _ => (p, []))). intros. exact Hp. }
  destruct (FE 5 ltac:(lia)) as (team & T & F). destruct (FE 1 ltac:(lia)) as (team' & T' & F'). exists nodes, bs, w, inv, SIG, team, team'. split; [exact T|]. split; [exact T'|].
  pose proof (C team ltac:(intros; rewrite T; lia)) as CT. pose proof (C team' ltac:(intros; rewrite T'; lia)) as CT'.
  assert (SG : still_gas ex_opt nodes bs w SIG 1 100000 (1 / 100) inv still_svd Phi (fun _ _ => true) true true [4] (fun _ => 1) m 7).
  { split; try reflexivity; try assumption; try discriminate; auto. intros _. exact still_svd_right. }
  assert (KK : kills_kernel (fun r : R => (0 < r)%R) ex_opt (ph m) 7).
  { intros M x _ Hx k. cbn. unfold still_eigabs. destruct (Nat.ltb_spec k 14) as [Hk|Hk]; [|reflexivity]. change (V ex_opt) with 14 in Hx. rewrite (Hx k Hk). apply Rabs_R0. }
  assert (RE : Forall (resting 7) still_line) by (repeat (constructor; [apply still_cell_rests|]); constructor).
  assert (VA : varied [4] still_line) by (exists 1%R, 2%R; split; [lra|]; split; [cbn; lra|]; repeat (constructor; [cbn; lra|]); constructor).
  destruct (gas_run_ends ex_opt nodes bs w SIG 1 100000 (1 / 100) inv (fun q => q) MirrorProps.ex_rates (fun _ => (0, 0, 0)%R) MirrorProps.ex_specrad still_eigabs None still_svd Phi (fun _ _ => true) true true 1 [4] (fun _ => 1) [1%R] team m 7
    svd (fun _ _ _ => Some 1%R) fill (fun _ => false) (1 / 2) 1 tol 1 11 still_line) as (s & E & Et & X); try reflexivity; try (cbn; lra); try exact F; try assumption; try (left; reflexivity).
  { split; [lra|]. intros q m' c H. cbn [speed_sum]. specialize (H 0 ltac:(cbn; lia)). injection H as H. rewrite <- H. lra. }
  pose proof CT as [_ GD _ _ _].
  pose proof (gas_ready ex_opt nodes bs w SIG 1 100000 (1 / 100) inv (fun q => q) still_svd Phi (fun _ _ => true) true true 1 [4] (fun _ => 1) [1%R] team m 7 SG CT) as RD.
  pose proof (rest_handed_met ex_opt nodes bs w SIG 1 100000 (1 / 100) inv (gas_wall ex_opt (fun q => q)) ph (fun _ => None) Phi (fun _ _ => true) ode true true 1 [4] (fun _ => 1) [1%R] team (fun r : R => (0 < r)%R) svd (fun _ _ _ => Some 1%R) fill (fun _ => false)
    (1 / 2) 1 tol m 7 (p_still m 7) still_line G ltac:(intros; lra) eq_refl eq_refl) as MH.
  exists s. split; [exact E|]. split; [exact Et|]. rewrite <- E. fold ph ode.
  apply (run_thread_count_partial ex_opt (fun k => nth k nodes 0%R) w (end_values bs) (Dv bs nodes) SIG 1 100000 (1 / 100) inv (gas_wall ex_opt (fun q => q)) ph (fun _ => None) Phi (fun _ _ => true) ode true true 1 [4] (fun _ => 1) [1%R] team team')
    with (nodes := nodes) (bs := bs); try reflexivity; try assumption; try discriminate.
  - apply MH; try assumption; try reflexivity; try discriminate.
    + apply (gas_sharp ex_opt nodes bs w SIG 1 100000 (1 / 100) inv MirrorProps.ex_rates (fun _ => (0, 0, 0)%R) MirrorProps.ex_specrad still_eigabs still_svd Phi (fun _ _ => true) true true 1 [4] (fun _ => 1) m 7 SG); try assumption; try (left; reflexivity); cbn; lra.
    + apply (gas_equilibrium ex_opt nodes bs w SIG 1 100000 (1 / 100) inv (fun q => q) MirrorProps.ex_rates (fun _ => (0, 0, 0)%R) MirrorProps.ex_specrad still_eigabs None still_svd Phi (fun _ _ => true) true true [4] (fun _ => 1) m 7 SG GD).
    + apply (gas_solid ex_opt nodes bs w SIG 1 100000 (1 / 100) inv (fun q => q) still_svd Phi (fun _ _ => true) true true [4] (fun _ => 1) m 7 still_line SG GD); try assumption. reflexivity.
Qed.
(** Two materials on five cells, the second one a void, on three threads and on one: both runs end at time 1/2, in the same state. *)
Example thread_count_materials_case ph Phi svd of inverse nanq tol par0 par1 : let MPs := [mkmatpar par0 false; mkmatpar par1 true] in
  exists nodes bs w inv SIG team team', (forall m g k dt, fst (team m g k dt) = 3) /\ (forall m g k dt, fst (team' m g k dt) = 1) /\
    let fill := run_fill one_level (run_star one_level false true (1 / 100000000) inverse nanq of 1) [5] [1%R] MPs in
    let prog team := program one_level (fun k => nth k nodes 0%R) w (end_values bs) (Dv bs nodes) SIG 1 100000 (1 / 100) inv (fun _ _ x => x) ph (fun _ => None) Phi (fun _ _ => true) ex_ode true true 0 [5] (fun _ => 0) [1%R] team
      svd (fun _ _ _ => Some (1 / 10)%R) fill (fun _ => false) false (1 / 2) (1 / 2) tol MPs 2 (pair_field 5) in
    exists s, prog team = Ok (s, false) /\ s_t s = (1 / 2)%R /\ prog team' = Ok (s, false).
Proof.
  intros MPs. destruct dg_basis_hyps as [nodes [bs [w [G L]]]]. pose proof G as [Dn [Bn _]]. destruct (weno_hyps nodes Dn ltac:(lia)) as [bs' [inv [SIG HW]]].
  pose proof HW as [_ [Bn' _]]. rewrite Bn in Bn'. injection Bn' as <-.
  assert (FE : forall p, 0 < p -> exists team, (forall m g k dt, fst (team m g k dt) = p) /\ configured one_level Phi true 0 [5] (fun _ => 0) [1%R] team /\
    finishing one_level (fun k => nth k nodes 0%R) w (end_values bs) (Dv bs nodes) SIG 1 100000 (1 / 100) inv (fun _ _ x => x) ph (fun _ => None) Phi (fun _ _ => true) ex_ode true true 0 [5] (fun _ => 0) [1%R] team).
  { intros p Hp. assert (C : forall team : matpar -> grid -> list bool -> R -> nat * list nat, (forall m g k dt, fst (team m g k dt) = p) -> configured one_level Phi true 0 [5] (fun _ => 0) [1%R] team).
    { intros team T. split; [split; [reflexivity|]; split; [lia|]; split; cbn; lra|left; exists 5; split; [reflexivity|cbn; lia]|intros k Hk; lia|intros; rewrite T; exact Hp|discriminate]. }
    destruct (finishing_exists one_level (fun k => nth k nodes 0%R) w (end_values bs) (Dv bs nodes) SIG 1 100000 (1 / 100) inv (fun _ _ x => x) ph (fun _ => None) Phi (fun _ _ => true) ex_ode true true 0 [5] (fun _ => 0) [1%R]
    (fun _ _ _ _ => p) (fun _ _ _ _ => Hp) (C (fun _ _ _ _ => (p, [])) (fun _ _ _ _ => eq_refl))) as (team & T & F).
    exists team. split; [exact T|]. split; [exact (C team T)|exact F]. }
  destruct (FE 3 ltac:(lia)) as (team & T & C & F). destruct (FE 1 ltac:(lia)) as (team' & T' & C' & F'). assert (SL := tenth_slow).
  exists nodes, bs, w, inv, SIG, team, team'.
  assert (NU : forall m, In m MPs -> numeric one_level SIG 1 100000 (1 / 100) inv (fun _ _ x => x) (fun _ => None) Phi (fun _ _ => true) ex_ode true true [5] (fun _ => 0) m nodes bs).
  { intros m _. split; [exact L|]. split; [exact HW|]. split; [exact I|]. split; [intros k Hk; split; lia|]. split; [|reflexivity]. intros h v. eexists. reflexivity. }
  split; [exact T|]. split; [exact T'|]. intros fill prog.
  destruct (two_materials_run_completes one_level (fun k => nth k nodes 0%R) w (end_values bs) (Dv bs nodes) SIG 1 100000 (1 / 100) inv (fun _ _ x => x) ph (fun _ => None) Phi (fun _ _ => true) ex_ode true true 0 5 (fun _ => 0) 1 team
    svd (fun _ _ _ => Some (1 / 10)%R) false true (1 / 100000000) inverse nanq of (fun _ => false) false (1 / 2) (1 / 2) tol (mkmatpar par0 false) (mkmatpar par1 true) C eq_refl) with (nodes := nodes) (bs := bs) (M := (1 / 10)%R) (fuel := 2) (u := pair_field 5) as (s & E & TE & _);
    try assumption; try lra; try lia; try reflexivity.
  - unfold maxDouble. cbn [INR]. lra.
  - left. reflexivity.
  - cbn [INR]. lra.
  - intros s Vs. apply visited_once with (M := (1 / 10)%R) in Vs; try assumption; try lra. subst s. apply pair_level. lia.
  - exists s. split; [exact E|]. split; [exact TE|]. rewrite <- E. unfold prog, fill. apply run_thread_count_materials_partial with (nodes := nodes) (bs := bs); try assumption; try discriminate. reflexivity.
Qed.
Print Assumptions run_thread_count_partial.
Print Assumptions run_thread_count_materials_partial.
