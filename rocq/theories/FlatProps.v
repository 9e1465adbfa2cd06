(** C97: a field that does not vary along y evolves on a plane as it does on a line. *)
From Coq Require Import Reals Lia Lra ZArith FunctionalExtensionality.
From Verif Require Import Base Options Sum Mat3 EqModel EqSpec FvModel FvBody FvSpec FvProof FvProps PolyModel WenoModel WenoSpec WenoProof WenoProps DgModel DgSpec DgProof2 DgProps GridModel GridSpec GridProof GridProps StepperModel AderModel AderProof3 AderProof4
  AderProps Ader2Props Ader3Props HomogModel SplitProps PhysModel UtilsModel UtilsProof UtilsProps IterModel IterSpec IterProof2 IterProps Split3Props SafeProof RunModel RunProof RunProof2 RunProps RunProof3 RunProof4 Run2Props
  MRunModel MRunProof RefSpec RefProof RefProof2 RefProof3 RefProof4 RefProof5 RefProps MirrorProof4 MirrorProof5 FlatProof FlatProof2 FlatProof3.
From Verif Require MRunProps CornerProof3 StiffProps PhysInst PhysProps MirrorProps.
Import List ListNotations.
Open Scope nat_scope.

Section Step.
Variable o : options.
Variables (nodes : list R) (bs : list poly) (WGHTS : nat -> R).
Variables (SIG : nat -> nat -> R) (LAMS LAMC EPS : R) (inv : stencil -> (nat -> R) -> nat -> R).
Variable wallf : nat -> nat -> num -> num.
Variable ph : matpar -> phys.
Variable prim : matpar -> option ((num -> num) * (num -> num)).
Variable Phi : matpar -> R -> nat -> list num -> res (option (nat -> option nodal)).
Variable valid : matpar -> nodal -> bool.
Variable ode : matpar -> R -> num -> num.
Variables (SPLIT HALF_STEP : bool) (FLUX : nat).
Notation NODES := (fun i => nth i nodes 0%R).
Notation ENDVALS := (end_values bs).
Notation DERVALS := (Dv bs nodes).
Notation team_type := (matpar -> grid -> list bool -> R -> nat * list nat).
Notation conf nX bt dX team := (configured o Phi SPLIT FLUX nX bt dX team).
Notation fin nX bt dX team := (finishing o NODES WGHTS ENDVALS DERVALS SIG LAMS LAMC EPS inv wallf ph prim Phi valid ode SPLIT HALF_STEP FLUX nX bt dX team).
Notation numeric nX bt m := (numeric o SIG LAMS LAMC EPS inv wallf prim Phi valid ode SPLIT HALF_STEP nX bt m nodes bs).
Notation ready nX bt m := (ready o SIG LAMS LAMC EPS inv wallf prim nX bt m nodes bs).
Notation met nX bt dX m := (met o NODES WGHTS ENDVALS DERVALS SIG LAMS LAMC EPS inv wallf ph prim Phi valid ode SPLIT HALF_STEP FLUX nX bt dX m).
Notation advance nX bt dX team := (run_advance o NODES WGHTS ENDVALS DERVALS SIG LAMS LAMC EPS inv wallf ph prim Phi valid ode SPLIT HALF_STEP FLUX nX bt dX team).
Notation stepped nX bt dX := (stepped o NODES WGHTS ENDVALS DERVALS SIG LAMS LAMC EPS inv wallf ph prim Phi ode SPLIT HALF_STEP FLUX nX bt dX).
Hypothesis HB : dg_basis nodes bs WGHTS.
Hypothesis HNC : NO_CORNERS o = false.

(** the predictor of the unsplit solver, in a cell of the plane whose nodal values do not depend on y, is that of the line *)
Definition flat_predictor (m : matpar) : Prop := SPLIT = false -> forall dt q q2 t, t < N o -> (forall i j, i < N o -> j < N o -> q2 (i * N o + j) = q i) ->
  forall i j, i < N o -> j < N o -> predicted o (Phi m dt) 2 q2 t (i * N o + j) = predicted o (Phi m dt) 1 q t i.
(** the ends along y are open or joined: no wall there *)
Definition open_sides (bt : nat -> nat) : Prop := bt 2 <= 1 /\ bt 3 <= 1.

Lemma new_along m nx ny dx dy bt dt (x : nat -> vec) a b : length nodes = N o -> weno_setup nodes bs inv SIG LAMS LAMC EPS -> open_sides bt -> flat_predictor m -> a < nx -> b < ny ->
  new2 o NODES WGHTS ENDVALS DERVALS SIG LAMS LAMC EPS inv wallf (ph m) (prim m) (Phi m dt) (ode m (dt / 2)%R) SPLIT HALF_STEP FLUX bt dt nx ny dx dy (fun a _ => x a) (fun _ _ => true) a b =
  new1 o NODES WGHTS ENDVALS DERVALS SIG LAMS LAMC EPS inv wallf (ph m) (prim m) (Phi m dt) (ode m (dt / 2)%R) SPLIT HALF_STEP FLUX bt dt nx dx x (fun _ => true) a.
Proof using HB.
  intros Ln HW [B2 B3] HP Ha Hb. destruct (AderProof4.tables o nodes bs WGHTS Ln HB) as (_ & TD & _ & TE). pose proof (N_pos o nodes bs WGHTS Ln HB) as N1.
  apply new_flat with (nodes := nodes) (bs := bs); try assumption; try lia.
  - rewrite <- Ln. apply (StiffProps.weights_sum nodes bs WGHTS HB).
  - split; assumption.
  - intros ES q q2 t Ht Hq s Hs. unfold lifted.
    assert (S1 : s / N o < N o) by (apply Nat.div_lt_upper_bound; cbn in Hs; lia). pose proof (Nat.mod_upper_bound s (N o) ltac:(lia)) as S2.
    replace s with (s / N o * N o + s mod N o) at 1 by (rewrite Nat.mul_comm; symmetry; apply Nat.div_mod; lia).
    apply (HP ES dt q q2 t Ht); try assumption. intros i j Hi Hj. rewrite Hq by (cbn; rewrite Nat.mul_1_r; apply pack_lt; assumption). unfold lifted. destruct (divmod (N o) i j Hj) as [-> _]. reflexivity.
Qed.

(** C97. A step of the plane from a field that is g in every row is the step of the line from g, in every row. The teams may differ. *)
Theorem step_flat_met nx ny dx dy bt (team team' : team_type) m (g : grid) dt : conf [nx] bt [dx] team -> fin [nx] bt [dx] team -> conf [nx; ny] bt [dx; dy] team' -> fin [nx; ny] bt [dx; dy] team' ->
  ready [nx] bt m -> ready [nx; ny] bt m -> met [nx] bt [dx] m g (repeat true nx) dt -> met [nx; ny] bt [dx; dy] m (along_y ny g) (repeat true (nx * ny)) dt -> open_sides bt -> flat_predictor m -> length g = nx ->
  exists h, advance [nx] bt [dx] team m g (repeat true nx) dt = Ok h /\ length h = nx /\
    advance [nx; ny] bt [dx; dy] team' m (along_y ny g) (repeat true (nx * ny)) dt = Ok (along_y ny h).
Proof using HB HNC.
  intros HC HF HC' HF' HNu HNu' HMt HMt' HO HP Lg. exists (stepped [nx] bt [dx] m g (repeat true nx) dt).
  assert (L1 : length (stepped [nx] bt [dx] m g (repeat true nx) dt) = nx) by (rewrite stepped_length with (team := team) by exact HC; cbn; lia). split; [|split; [exact L1|]].
  - apply step_computes_met with (nodes := nodes) (bs := bs); cbn [length fold_right]; rewrite ?Nat.mul_1_r, ?repeat_length; try assumption; auto; discriminate.
  - pose proof HC' as [_ [(nx' & E & _)|(x & y & E & Hx & Hy)] _ _ _]; [discriminate|]. injection E as <- <-. pose proof HNu as (Ln & HW & _). pose proof (N_pos o nodes bs WGHTS Ln HB) as N1.
    rewrite step_computes_met with (nodes := nodes) (bs := bs); cbn [length fold_right]; rewrite ?Nat.mul_1_r, ?repeat_length, ?along_length, ?Lg; try assumption; auto; try discriminate.
    f_equal. apply nth_ext with (d := fun _ => 0%R) (d' := fun _ => 0%R).
    + rewrite along_length, L1. rewrite stepped_length with (team := team') by exact HC'. cbn. lia.
    + rewrite stepped_length with (team := team') by exact HC'. cbn [fold_right]. intros c Hc. rewrite Nat.mul_1_r in Hc.
      assert (A : c / ny < nx) by (apply Nat.div_lt_upper_bound; lia). pose proof (Nat.mod_upper_bound c ny ltac:(lia)) as B.
      replace c with (c / ny * ny + c mod ny) at 2 by (rewrite Nat.mul_comm; symmetry; apply Nat.div_mod; lia). rewrite along_nth by exact B.
      unfold RefProps.stepped. cbn [nth]. rewrite !nth_map_seq by assumption.
      transitivity (new1 o NODES WGHTS ENDVALS DERVALS SIG LAMS LAMC EPS inv wallf (ph m) (prim m) (Phi m dt) (ode m (dt / 2)%R) SPLIT HALF_STEP FLUX bt dt nx dx (fun c => nth c g (fun _ => 0%R)) (fun _ => true) (c / ny)).
      * rewrite <- (new_along m nx ny dx dy bt dt (fun c => nth c g (fun _ => 0%R)) (c / ny) (c mod ny) Ln HW HO HP A B).
        apply (new2_rel o nodes bs); try assumption.
        -- intros d e Hd He _. unfold extended2, extend2. f_equal. apply extend1_val; [|lia|lia]. intros y Hy0. apply extend1_val; [|lia|lia]. intros x Hx0. rewrite along_nth by lia. reflexivity.
        -- intros d e Hde. rewrite !spread2_full; try reflexivity; try assumption. intros i j Hi Hj. rewrite nth_true. apply Nat.ltb_lt. nia.
        -- apply along_nth, B.
      * apply (new1_rel o nodes bs); try assumption.
        -- reflexivity.
        -- intros d Hd. rewrite !spread1_full; try reflexivity; try lia. intros i Hi. rewrite nth_true. apply Nat.ltb_lt, Hi.
        -- reflexivity.
Qed.
(** in particular when the functions give numbers on all numbers *)
Theorem step_flat nx ny dx dy bt (team team' : team_type) m (g : grid) dt : conf [nx] bt [dx] team -> fin [nx] bt [dx] team -> conf [nx; ny] bt [dx; dy] team' -> fin [nx; ny] bt [dx; dy] team' ->
  numeric [nx] bt m -> numeric [nx; ny] bt m -> open_sides bt -> flat_predictor m -> length g = nx ->
  exists h, advance [nx] bt [dx] team m g (repeat true nx) dt = Ok h /\ length h = nx /\
    advance [nx; ny] bt [dx; dy] team' m (along_y ny g) (repeat true (nx * ny)) dt = Ok (along_y ny h).
Proof using HB HNC.
  intros HC HF HC' HF' HNu HNu'. pose proof (fun g => numeric_met _ NODES WGHTS ENDVALS DERVALS _ _ _ _ _ _ ph _ _ _ _ _ _ FLUX _ _ [dx] team HC nodes bs m g (repeat true nx) dt HNu) as X. pose proof (fun g => numeric_met _ NODES WGHTS ENDVALS DERVALS _ _ _ _ _ _ ph _ _ _ _ _ _ FLUX _ _ [dx; dy] team' HC' nodes bs m g (repeat true (nx * ny)) dt HNu') as X'.
  intros. apply step_flat_met; try assumption; solve [apply (X []) | apply (X' []) | apply X | apply X'].
Qed.

Section Run.
Variable svd : mat3 -> vec3 * mat3.
Variables speed speed' : vec -> nat -> matpar -> option R.
Variables fill fill' : list grid -> list (list bool) -> grid -> R -> res (grid * list grid * list (list bool)).
Variable nan : grid -> bool.
Variable ROT : bool.
Variables (CFL tf tol : R) (m : matpar).
(** a state that the run of the line from u hands to a step of the solver, with the length of the step *)
Notation handed nX bt dX team speed u := (handed o svd speed fill (advance nX bt dX team) nan ROT dX CFL tf tol m (init [m] u)).
Notation prog nX bt dX team speed fill := (program o NODES WGHTS ENDVALS DERVALS SIG LAMS LAMC EPS inv wallf ph prim Phi valid ode SPLIT HALF_STEP FLUX nX bt dX team svd speed fill nan ROT CFL tf tol [m]).
Hypothesis HL : LSET o = 0.
Hypothesis HMv : mp_void m = false.
Hypothesis HV : VISCOUS o = true.

(** The time step of a plane is chosen from the wave speeds along both axes, so the run of the line it equals is the one whose time step is chosen from their sum. Then the run of the plane is
    that of the line in every row: same times, same number of turns, every snapshot repeated, and if one aborts, so does the other *)
Theorem run_flat_met nx ny dx dy bt (team team' : team_type) fuel (u : grid) : conf [nx] bt [dx] team -> fin [nx] bt [dx] team -> conf [nx; ny] bt [dx; dy] team' -> fin [nx; ny] bt [dx; dy] team' ->
  ready [nx] bt m -> ready [nx; ny] bt m ->
  (forall g dt, handed [nx] bt [dx] team speed' u g dt -> met [nx] bt [dx] m g (repeat true nx) dt /\ met [nx; ny] bt [dx; dy] m (along_y ny g) (repeat true (nx * ny)) dt) -> open_sides bt -> flat_predictor m -> (forall q m, rate speed' [dx] q m = rate speed [dx; dy] q m) ->
  (forall g, length g = nx -> nan (along_y ny g) = nan g) -> length u = nx ->
  prog [nx; ny] bt [dx; dy] team' speed fill' fuel (along_y ny u) = copies_run unchanged (column ny) (nx * ny) (prog [nx] bt [dx] team speed' fill fuel u).
Proof using HB HNC HL HMv HV.
  intros HC HF HC' HF' HNu HNu' HMt HO HP HR Hnan Lu. unfold program. rewrite (iterator_rate o svd speed speed' fill) with (dX := [dx; dy]) by exact HR.
  assert (AC : forall g : grid, length g = nx -> copies (nx * ny) unchanged (column ny) g = along_y ny g) by (intros g <-; apply along_copies).
  rewrite <- AC by exact Lu. pose proof HC' as [_ [(nx' & E & _)|(x & y & E & Hx & Hy)] _ _ _]; [discriminate|]. injection E as <- <-. pose proof HNu as (Ln & HW & _). pose proof (N_pos o nodes bs WGHTS Ln HB) as N1.
  destruct (one_cell o svd m HL HMv HV) as (C0 & C1 & C2 & C3).
  assert (CC : forall f, RefProof5.commutes (fun q : vec => q) f -> MirrorProof4.commutes unchanged f) by (intros f (F & A & B); exists F; split; [exact A|reflexivity]).
  apply iterator_copies with (n := nx) (Good := fun g dt => met [nx] bt [dx] m g (repeat true nx) dt /\ met [nx; ny] bt [dx; dy] m (along_y ny g) (repeat true (nx * ny)) dt); auto.
  - apply column_covers. lia.
  - intros g dt Lg [G1 G2]. destruct (step_flat_met nx ny dx dy bt team team' m g dt HC HF HC' HF' HNu HNu' G1 G2 HO HP Lg) as (h & A & L & B). exists h. split; [exact A|]. split; [exact L|]. rewrite !AC by assumption. exact B.
  - intros g Lg. rewrite AC by exact Lg. apply Hnan, Lg.
  - intros g dt Hg. apply HMt. exact (handed_rate o svd speed speed' fill _ nan ROT [dx; dy] [dx] CFL tf tol HR m _ g dt Hg).
Qed.
(** in particular when the functions give numbers on all numbers *)
Theorem run_flat nx ny dx dy bt (team team' : team_type) fuel (u : grid) : conf [nx] bt [dx] team -> fin [nx] bt [dx] team -> conf [nx; ny] bt [dx; dy] team' -> fin [nx; ny] bt [dx; dy] team' ->
  numeric [nx] bt m -> numeric [nx; ny] bt m -> open_sides bt -> flat_predictor m -> (forall q m, rate speed' [dx] q m = rate speed [dx; dy] q m) ->
  (forall g, length g = nx -> nan (along_y ny g) = nan g) -> length u = nx ->
  prog [nx; ny] bt [dx; dy] team' speed fill' fuel (along_y ny u) = copies_run unchanged (column ny) (nx * ny) (prog [nx] bt [dx] team speed' fill fuel u).
Proof using HB HNC HL HMv HV.
  intros HC HF HC' HF' HNu HNu'. pose proof (fun g dt => numeric_met _ NODES WGHTS ENDVALS DERVALS _ _ _ _ _ _ ph _ _ _ _ _ _ FLUX _ _ [dx] team HC nodes bs m g (repeat true nx) dt HNu) as X. pose proof (fun g dt => numeric_met _ NODES WGHTS ENDVALS DERVALS _ _ _ _ _ _ ph _ _ _ _ _ _ FLUX _ _ [dx; dy] team' HC' nodes bs m g (repeat true (nx * ny)) dt HNu') as X'.
  intros. apply run_flat_met; try assumption; [apply (X [] 0%R)|apply (X' [] 0%R)|]. intros g dt _. split; [apply X|apply X'].
Qed.
(** what this says of the state at the end *)
Corollary run_flat_ends_met nx ny dx dy bt (team team' : team_type) fuel (u : grid) x b : conf [nx] bt [dx] team -> fin [nx] bt [dx] team -> conf [nx; ny] bt [dx; dy] team' -> fin [nx; ny] bt [dx; dy] team' ->
  ready [nx] bt m -> ready [nx; ny] bt m ->
  (forall g dt, handed [nx] bt [dx] team speed' u g dt -> met [nx] bt [dx] m g (repeat true nx) dt /\ met [nx; ny] bt [dx; dy] m (along_y ny g) (repeat true (nx * ny)) dt) -> open_sides bt -> flat_predictor m -> (forall q m, rate speed' [dx] q m = rate speed [dx; dy] q m) ->
  (forall g, nan g = false) -> length u = nx -> (0 < CFL)%R -> (0 < tf)%R ->
  prog [nx] bt [dx] team speed' fill fuel u = Ok (x, b) ->
  exists x', prog [nx; ny] bt [dx; dy] team' speed fill' fuel (along_y ny u) = Ok (x', b) /\ s_u x' = along_y ny (s_u x) /\ s_t x' = s_t x /\ s_count x' = s_count x /\ s_push x' = s_push x.
Proof using HB HNC HL HMv HV.
  intros HC HF HC' HF' HNu HNu' HMt HO HP HR Hnan Lu HCFL Htf E.
  assert (Lx : length (s_u x) = nx).
  { pose proof (run_never_undefined o NODES WGHTS ENDVALS DERVALS SIG LAMS LAMC EPS inv wallf ph prim Phi valid ode SPLIT HALF_STEP FLUX [nx] bt [dx] team svd speed' fill nan ROT CFL tf tol m fuel u
      HC HL HMv HCFL Htf Hnan ltac:(cbn; lia)) as Y. rewrite E in Y. destruct Y as [Y|[Y|Y]]; [|discriminate|discriminate]. destruct Y as (r & Y & _ & L & _). injection Y as <-. cbn in L. lia. }
  pose proof (run_flat_met nx ny dx dy bt team team' fuel u HC HF HC' HF' HNu HNu' HMt HO HP HR ltac:(intros; rewrite !Hnan; reflexivity) Lu) as X. rewrite E in X. cbn [copies_run] in X.
  eexists. split; [exact X|]. cbn [copies_state s_u s_t s_count s_push]. split; [|auto]. rewrite <- Lx. apply along_copies.
Qed.
Corollary run_flat_ends nx ny dx dy bt (team team' : team_type) fuel (u : grid) x b : conf [nx] bt [dx] team -> fin [nx] bt [dx] team -> conf [nx; ny] bt [dx; dy] team' -> fin [nx; ny] bt [dx; dy] team' ->
  numeric [nx] bt m -> numeric [nx; ny] bt m -> open_sides bt -> flat_predictor m -> (forall q m, rate speed' [dx] q m = rate speed [dx; dy] q m) ->
  (forall g, nan g = false) -> length u = nx -> (0 < CFL)%R -> (0 < tf)%R ->
  prog [nx] bt [dx] team speed' fill fuel u = Ok (x, b) ->
  exists x', prog [nx; ny] bt [dx; dy] team' speed fill' fuel (along_y ny u) = Ok (x', b) /\ s_u x' = along_y ny (s_u x) /\ s_t x' = s_t x /\ s_count x' = s_count x /\ s_push x' = s_push x.
Proof using HB HNC HL HMv HV.
  intros HC HF HC' HF' HNu HNu'. pose proof (fun g dt => numeric_met _ NODES WGHTS ENDVALS DERVALS _ _ _ _ _ _ ph _ _ _ _ _ _ FLUX _ _ [dx] team HC nodes bs m g (repeat true nx) dt HNu) as X. pose proof (fun g dt => numeric_met _ NODES WGHTS ENDVALS DERVALS _ _ _ _ _ _ ph _ _ _ _ _ _ FLUX _ _ [dx; dy] team' HC' nodes bs m g (repeat true (nx * ny)) dt HNu') as X'.
  intros. eapply run_flat_ends_met; try eassumption; [apply (X [] 0%R)|apply (X' [] 0%R)|]. intros g dt _. split; [apply X|apply X'].
Qed.
End Run.
End Step.

(** ** The ADER predictor *)
(** With the unsplit solver nothing has to be assumed about the space-time predictor: the one of dg2.cpp, with Picard iterations, exact solvers of the linear systems and constitutive functions
    that give numbers, does to a cell whose data do not vary along y what the one of dg1.cpp does to the line. *)
Theorem ader_flat o nodes bs w ph DG_IT DG_TOL solve nonlin_solve nan_far dX m : VISCOUS o = true -> length nodes = N o -> dg_basis nodes bs w ->
  solves (N o * N o) (kron [full (N o) (Mof nodes bs w); diagonal (N o) w]) (solve 1) -> solves (N o * N o * N o) (kron [full (N o) (Mof nodes bs w); diagonal (N o) w; diagonal (N o) w]) (solve 2) ->
  flat_predictor o (fun (m : matpar) dt => DgModel.Phi o (ph m) w (end_values bs) (Dv bs nodes) (Dmat bs (fun k => nth k nodes 0%R) w) (Mof nodes bs w) dt dX DG_IT DG_TOL solve nonlin_solve (fun _ => true) nan_far false false) false m.
Proof.
  intros HV HL HB HS HS' _ dt q q2 t Ht Hq i j Hi Hj.
  assert (L : i * N o + j < N o ^ 2) by (cbn; rewrite Nat.mul_1_r; apply pack_lt; assumption).
  rewrite (predictor_rows o (ph m) nodes bs w dt dX dX DG_IT DG_TOL solve solve nonlin_solve nonlin_solve (fun _ => true) nan_far HV HL HB HS HS' ltac:(reflexivity) eq_refl q q2 t Ht).
  - unfold lifted. destruct (divmod (N o) i j Hj) as [-> _]. reflexivity.
  - intros s Hs. unfold lifted. assert (S1 : s / N o < N o) by (apply Nat.div_lt_upper_bound; cbn in Hs; lia). pose proof (Nat.mod_upper_bound s (N o) ltac:(lia)) as S2.
    rewrite <- (Hq (s / N o) (s mod N o) S1 S2). f_equal. rewrite Nat.mul_comm. apply Nat.div_mod. lia.
  - exact L.
Qed.

(** ** Cases that meet the hypotheses *)
Definition plane_opt : options := mkopt true false false 0 false false 2.
Definition plane_walls (ty d : nat) : num -> num := option_map (wall plane_opt (fun q => q) ty d).
(** a stick wall on the left, a symmetric one on the right, joined along y *)
Definition plane_ends (k : nat) : nat := nth k [STICK; SYMMETRIC; 1; 1] 0.
Definition plane_line : grid := map (fun a k => (INR (S a) + INR k)%R) (seq 0 4).
Lemma plane_setup ph Phi m nX dX p : (nX = [4] /\ dX = [1%R] \/ nX = [4; 3] /\ dX = [1; 1 / 2]%R) -> 0 < p -> forall nodes bs w inv SIG, dg_basis nodes bs w -> length nodes = 2 -> weno_setup nodes bs inv SIG 1 100000 (1 / 100) ->
  numeric plane_opt SIG 1 100000 (1 / 100) inv plane_walls (fun _ => None) Phi (fun _ _ => true) MirrorProps.ex_drag true true nX plane_ends m nodes bs /\
  exists team : matpar -> grid -> list bool -> R -> nat * list nat, (forall m g k dt, fst (team m g k dt) = p) /\ configured plane_opt Phi true 0 nX plane_ends dX team /\
    finishing plane_opt (fun k => nth k nodes 0%R) w (end_values bs) (Dv bs nodes) SIG 1 100000 (1 / 100) inv plane_walls ph (fun _ => None) Phi (fun _ _ => true) MirrorProps.ex_drag true true 0 nX plane_ends dX team.
Proof.
  intros HX Hp nodes bs w inv SIG G L HW.
  assert (Hb : forall k, plane_ends k <= 5) by (intros [|[|[|[|[|k]]]]]; unfold plane_ends, STICK, SYMMETRIC; cbn; lia).
  assert (C : forall team : matpar -> grid -> list bool -> R -> nat * list nat, (forall m g k dt, 0 < fst (team m g k dt)) -> configured plane_opt Phi true 0 nX plane_ends dX team).
  { intros team T. split.
    - split; [reflexivity|]. split; [lia|]. destruct HX as [[_ ->]|[_ ->]]; split; cbn; lra.
    - destruct HX as [[-> _]|[-> _]]; [left; exists 4|right; exists 4, 3]; (split; [reflexivity|]); cbn; lia.
    - intros k Hk. apply Hb.
    - intros. apply T.
    - discriminate. }
  split.
  - split; [exact L|]. split; [exact HW|]. split; [exact I|]. split; [intros k Hk; split; [apply Hb|intros _ v; eexists; reflexivity]|]. split; [|reflexivity]. intros h v. eexists. reflexivity.
  - destruct (finishing_exists plane_opt (fun k => nth k nodes 0%R) w (end_values bs) (Dv bs nodes) SIG 1 100000 (1 / 100) inv plane_walls ph (fun _ => None) Phi (fun _ _ => true) MirrorProps.ex_drag true true 0 nX plane_ends dX (fun _ _ _ _ => p)) as (team & T & F); [auto| |].
    + apply C. intros. exact Hp.
    + exists team. split; [exact T|]. split; [|exact F]. apply C. intros. rewrite T. exact Hp.
Qed.
(** four cells by three, half as wide along y; waves twice as fast along x. One thread on the line, three on the plane. Both runs end at time 1. *)
Example flat_case ph Phi svd fill tol par5 : let m := mkmatpar par5 false in
  exists nodes bs w inv SIG team team', (forall m g k dt, fst (team m g k dt) = 1) /\ (forall m g k dt, fst (team' m g k dt) = 3) /\
  let prog nX dX team speed := program plane_opt (fun k => nth k nodes 0%R) w (end_values bs) (Dv bs nodes) SIG 1 100000 (1 / 100) inv plane_walls ph (fun _ => None) Phi (fun _ _ => true) MirrorProps.ex_drag true true 0 nX plane_ends dX team
      svd speed fill (fun _ => false) false (1 / 2) 1 tol [m] 21 in
  exists s s', prog [4] [1%R] team (fun _ _ _ => Some 2%R) plane_line = Ok (s, false) /\ prog [4; 3] [1; 1 / 2]%R team' (fun _ d _ => Some (if d =? 0 then 1 else 1 / 2)%R) (along_y 3 plane_line) = Ok (s', false) /\
    s_t s = 1%R /\ s_t s' = 1%R /\ s_u s' = along_y 3 (s_u s).
Proof.
  intros m. destruct dg_basis_hyps as [nodes [bs [w [G L]]]]. pose proof G as [Dn [Bn _]]. destruct (weno_hyps nodes Dn ltac:(lia)) as [bs' [inv [SIG HW]]].
  pose proof HW as [_ [Bn' _]]. rewrite Bn in Bn'. injection Bn' as <-.
  destruct (plane_setup ph Phi m [4] [1%R] 1 ltac:(auto) ltac:(lia) nodes bs w inv SIG G L HW) as (NU & team & T & C & F).
  destruct (plane_setup ph Phi m [4; 3] [1; 1 / 2]%R 3 ltac:(auto) ltac:(lia) nodes bs w inv SIG G L HW) as (NU' & team' & T' & C' & F').
  exists nodes, bs, w, inv, SIG, team, team'. split; [exact T|]. split; [exact T'|]. intros prog.
  assert (SL : slow [1%R] (fun _ _ _ => Some 2%R) 2).
  { split; [lra|]. intros q m' c H. cbn [speed_sum]. specialize (H 0 ltac:(cbn; lia)). injection H as H. rewrite <- H. lra. }
  destruct (run_completes plane_opt (fun k => nth k nodes 0%R) w (end_values bs) (Dv bs nodes) SIG 1 100000 (1 / 100) inv plane_walls ph (fun _ => None) Phi (fun _ _ => true) MirrorProps.ex_drag true true 0 [4] plane_ends [1%R] team
    svd (fun _ _ _ => Some 2%R) fill (fun _ => false) false (1 / 2) 1 tol m C F eq_refl eq_refl ltac:(lra) ltac:(lra) ltac:(reflexivity) ltac:(discriminate) nodes bs 2 plane_line 21 NU SL ltac:(cbn [INR]; lra) eq_refl) as (s & E & Et & _).
  destruct (run_flat_ends plane_opt nodes bs w SIG 1 100000 (1 / 100) inv plane_walls ph (fun _ => None) Phi (fun _ _ => true) MirrorProps.ex_drag true true 0 G eq_refl svd (fun _ d _ => Some (if d =? 0 then 1 else 1 / 2)%R) (fun _ _ _ => Some 2%R) fill fill (fun _ => false) false (1 / 2) 1 tol m
    eq_refl eq_refl eq_refl 4 3 1 (1 / 2) plane_ends team team' 21 plane_line s false C F C' F' NU NU') as (s' & E' & U & Ut & _); try reflexivity; try lra.
  - split; cbn; lia.
  - discriminate.
  - intros q m'. unfold rate. cbn. f_equal. field.
  - exact E.
  - exists s, s'. rewrite Ut. repeat split; assumption.
Qed.
(** the unsplit solver with the tables of the shipped order, 50 iterations and the code's tolerance, whatever the constitutive functions *)
Example ader_flat_case ph m nan_far nonlin_solve : exists nodes bs w solve, dg_basis nodes bs w /\
  flat_predictor plane_opt (fun (m : matpar) dt => DgModel.Phi plane_opt (ph m) w (end_values bs) (Dv bs nodes) (Dmat bs (fun k => nth k nodes 0%R) w) (Mof nodes bs w) dt (fun _ => 1%R) 50 (6 / 1000000) solve nonlin_solve (fun _ => true) nan_far false false) false m.
Proof.
  destruct dg_basis_hyps as [nodes [bs [w [G L]]]]. destruct (two_node_solver plane_opt nodes bs w G eq_refl L) as [s1 S1]. destruct (CornerProof3.two_node_solver_2d plane_opt nodes bs w G eq_refl L) as [s2 S2].
  exists nodes, bs, w, (fun d => if d =? 1 then s1 else s2). split; [exact G|]. apply ader_flat; try assumption; reflexivity.
Qed.
(** why run_flat names two rules for the time step: with the same wave speeds the plane has the larger rate *)
Example plane_rate_differs : exists speed q m, rate speed [1%R] q m <> rate speed [1%R; 1%R] q m.
Proof.
  exists (fun _ _ _ => Some 1%R), (fun _ => 0%R), (mkmatpar (PhysProps.demo_par STIFFENED_GAS 300) false). unfold rate. cbn. intros H. injection H as H. lra.
Qed.

Print Assumptions step_flat_met.
Print Assumptions step_flat.
Print Assumptions run_flat_met.
Print Assumptions run_flat.
Print Assumptions run_flat_ends_met.
Print Assumptions run_flat_ends.
Print Assumptions ader_flat.
