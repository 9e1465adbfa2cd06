(** What one turn of the loop does to a cell, one material; for C101. *)
From Coq Require Import Reals Lia Lra ZArith.
From Verif Require Import Base Options Mat3 PhysModel UtilsModel UtilsProof UtilsProps IterModel IterSpec IterProof IterProof2 IterProps RunProof2.
Import List ListNotations.
Open Scope nat_scope.

Lemma each_local f (u u' g g' : grid) c i : each_cell f c u = Ok g -> each_cell f c u' = Ok g' -> nth_error u i = nth_error u' i -> nth_error g i = nth_error g' i.
Proof.
  intros E E' H. apply each_cell_ok in E, E'. destruct E as [L X], E' as [L' X']. destruct (nth_error u i) as [q|] eqn:Q.
  - symmetry in H. destruct (X i q Q) as (a & A & FA). destruct (X' i q H) as (b & B & FB). rewrite FA in FB. injection FB as <-. now rewrite A, B.
  - symmetry in H. apply nth_error_None in Q, H. rewrite !(proj2 (nth_error_None _ _)) by lia. reflexivity.
Qed.

Section One.
Variable o : options.
Variable svd : mat3 -> vec3 * mat3.
Variable speed : vec -> nat -> matpar -> option R.
Variable fill : list grid -> list (list bool) -> grid -> R -> res (grid * list grid * list (list bool)).
Variable advance : matpar -> grid -> list bool -> R -> res grid.
Variable nan : grid -> bool.
Variable ROT : bool.
Variables (dX : list R) (CFL tf tol : R) (m : matpar).
Notation turn := (turn o svd speed fill advance nan ROT dX CFL tf tol [m]).
Notation run := (run o svd speed fill advance nan ROT dX CFL tf tol [m]).

(** the states of a run: [passes start n s] if the loop, begun in start, is in the state s after n turns, none of which aborted the run *)
Inductive passes (start : state) : nat -> state -> Prop :=
| passes_start : passes start 0 start
| passes_turn n s s' : passes start n s -> (s_t s < tf)%R -> turn s = Ok (inl s') -> passes start (S n) s'.

Lemma passes_first s s' s'' n : (s_t s < tf)%R -> turn s = Ok (inl s') -> passes s' n s'' -> passes s (S n) s''.
Proof. intros L E H. induction H as [|n a b H IH La Ea]; [exact (passes_turn s 0 s s' (passes_start s) L E)|exact (passes_turn s _ _ _ IH La Ea)]. Qed.
(** a run that was not aborted ends in the last of them *)
Lemma run_passes : forall fuel s s', run fuel s = Ok (s', false) -> exists n s1, passes s n s1 /\ ~ (s_t s1 < tf)%R /\ s_u s' = s_u s1 /\ s_t s' = s_t s1 /\ s_count s' = s_count s1.
Proof.
  assert (X : forall s s' ret, (ret0 <- wr (s_ret s) 99 (s_u s, s_t s) ;; Ok (mkstate (s_u s) (s_grids s) (s_masks s) (s_t s) (s_dt s) (s_count s) (s_push s) ret0, false)) = Ok (s', ret) ->
    s_u s' = s_u s /\ s_t s' = s_t s /\ s_count s' = s_count s) by (intros s s' ret E; apply bind_ok in E; destruct E as (r & _ & E); injection E as <- _; auto).
  induction fuel as [|fuel IH]; intros s s' E; cbn [IterModel.run] in E; destruct (Rlt_dec (s_t s) tf) as [L|L]; try discriminate; try (exists 0, s; split; [constructor|]; split; [exact L|]; exact (X _ _ _ E)).
  apply bind_ok in E. destruct E as ([s1|s1] & E1 & E); [|discriminate]. destruct (IH _ _ E) as (n & s2 & H & Y). exists (S n), s2. split; [|exact Y]. exact (passes_first s s1 s2 n L E1 H).
Qed.
Lemma passes_handed start n s g dt : passes start n s -> handed o svd speed fill advance nan ROT dX CFL tf tol m s g dt -> handed o svd speed fill advance nan ROT dX CFL tf tol m start g dt.
Proof. intros H. induction H as [|n a b H IH La Ea]; intros X; [exact X|]. apply IH. exact (handed_later _ _ _ _ _ _ _ _ _ _ _ _ _ _ _ _ La Ea X). Qed.
Lemma passes_tested start n s g : passes start n s -> tested o svd speed fill advance nan ROT dX CFL tf tol m s g -> tested o svd speed fill advance nan ROT dX CFL tf tol m start g.
Proof. intros H. induction H as [|n a b H IH La Ea]; intros X; [exact X|]. apply IH. exact (tested_later _ _ _ _ _ _ _ _ _ _ _ _ _ _ _ La Ea X). Qed.

Hypothesis HL : LSET o = 0.
Hypothesis HM : mp_void m = false.
Lemma turn_inl s s' k : (exists g0, s_grids s = [g0]) -> s_masks s = [k] -> (s_t s < tf)%R -> turn s = Ok (inl s') ->
  exists dt u1 u2, handed o svd speed fill advance nan ROT dX CFL tf tol m s (s_u s) dt /\ advance m (s_u s) k dt = Ok u1 /\ corrected o svd ROT m (S (s_count s)) u1 = Ok u2 /\
    tested o svd speed fill advance nan ROT dX CFL tf tol m s u2 /\ post o svd ROT tol m (S (s_count s)) u1 = Ok (s_u s') /\ s_t s' = (s_t s + dt)%R /\ s_count s' = S (s_count s) /\
    (exists g0, s_grids s' = [g0]) /\ s_masks s' = [k].
Proof.
  intros [g0 EG] EK Lt E. rewrite (turn_single o svd speed fill advance nan ROT dX CFL tf tol m HL HM s g0 k EG EK) in E.
  apply bind_ok in E. destruct E as ([dt|] & ED & E); [|discriminate]. apply bind_ok in E. destruct E as (u1 & EA & E). apply bind_ok in E. destruct E as (u' & EP & E).
  pose proof EP as EP0. unfold post in EP0. apply bind_ok in EP0. destruct EP0 as (u2 & EC & _).
  apply bind_ok in E. destruct E as ([ret push] & EW & E). destruct (nan u').
  - apply bind_ok in E. destruct E as (r1 & W1 & E). apply bind_ok in E. destruct E as (r2 & W2 & E). discriminate.
  - injection E as <-. exists dt, u1, u2. cbn [s_u s_t s_count s_grids s_masks].
    split; [exact (handed_now _ _ _ _ _ _ _ _ _ _ _ _ _ _ _ _ Lt EK ED eq_refl)|]. split; [exact EA|]. split; [exact EC|].
    split; [exact (tested_now _ _ _ _ _ _ _ _ _ _ _ _ _ _ _ _ _ Lt EK ED EA EC)|]. split; [exact EP|]. split; [reflexivity|]. split; [reflexivity|]. split; [eexists; reflexivity|reflexivity].
Qed.
Lemma turn_time s s' k : (exists g0, s_grids s = [g0]) -> s_masks s = [k] -> turn s = Ok (inl s') ->
  exists dt, timestep speed [m] [s_u s] [k] dX CFL (s_t s) tf (s_count s) 1 = Ok (Some dt) /\ s_t s' = (s_t s + dt)%R.
Proof.
  intros [g0 EG] EK E. rewrite (turn_single o svd speed fill advance nan ROT dX CFL tf tol m HL HM s g0 k EG EK) in E.
  apply bind_ok in E. destruct E as ([dt|] & ED & E); [|discriminate]. apply bind_ok in E. destruct E as (u1 & EA & E). apply bind_ok in E. destruct E as (u' & EP & E).
  apply bind_ok in E. destruct E as ([ret push] & EW & E). destruct (nan u').
  - apply bind_ok in E. destruct E as (r1 & W1 & E). apply bind_ok in E. destruct E as (r2 & W2 & E). discriminate.
  - injection E as <-. exists dt. split; [exact ED|reflexivity].
Qed.
Lemma tested_from s g k : tested o svd speed fill advance nan ROT dX CFL tf tol m s g -> (exists g0, s_grids s = [g0]) -> s_masks s = [k] ->
  exists v dt u1 c, handed o svd speed fill advance nan ROT dX CFL tf tol m s v dt /\ advance m v k dt = Ok u1 /\ corrected o svd ROT m (S c) u1 = Ok g.
Proof.
  intros H. induction H as [s g k' dt u1 Lt EK ED EA EC|s g s' Lt ET H IH]; intros EG K.
  - rewrite EK in K. injection K as <-. exists (s_u s), dt, u1, (s_count s). split; [|split; assumption]. exact (handed_now _ _ _ _ _ _ _ _ _ _ _ _ _ _ _ _ Lt EK ED eq_refl).
  - destruct (turn_inl s s' k EG K Lt ET) as (dt & u1 & u2 & _ & _ & _ & _ & _ & _ & _ & G' & K'). destruct (IH G' K') as (v & h & u3 & c & A & B). exists v, h, u3, c. split; [|exact B].
    exact (handed_later _ _ _ _ _ _ _ _ _ _ _ _ _ _ _ _ Lt ET A).
Qed.
(** a run that ends after its start makes a first turn *)
Lemma run_turns fuel s s' : run fuel s = Ok (s', false) -> (s_t s < tf)%R -> exists s1, passes s 1 s1.
Proof using.
  intros E Lt. destruct fuel as [|fuel]; cbn [IterModel.run] in E; destruct (Rlt_dec (s_t s) tf) as [_|X]; try contradiction; try discriminate.
  apply bind_ok in E. destruct E as ([s1|s1] & E1 & E); [|discriminate]. exists s1. exact (passes_turn s 0 s s1 (passes_start s) Lt E1).
Qed.
(** with wave speeds that are the same everywhere, the time step does not depend on the state *)
Lemma timestep_constant c0 (g g' : grid) k t n : (forall q d, speed q d m = Some c0) -> length g = length g' -> timestep speed [m] [g] [k] dX CFL t tf n 1 = timestep speed [m] [g'] [k] dX CFL t tf n 1.
Proof using HM HL.
  intros HS Lg. unfold timestep. replace (max_rate speed [m] [g'] [k] dX 1) with (max_rate speed [m] [g] [k] dX 1); [reflexivity|].
  assert (XR : forall q q', rate speed dX q m = rate speed dX q' m).
  { intros q q'. unfold rate. generalize (Some 0%R) as acc. generalize 0 as d. induction dX as [|h l IH]; intros d acc; cbn [rate_from]; [reflexivity|]. rewrite !HS. apply IH. }
  unfold max_rate. cbn [get nth_error bind for_loop]. unfold get at 1 3. cbn [nth_error bind]. rewrite HM. rewrite Lg. f_equal. apply for_loop_ext. intros i MAX Hi. cbn [get nth_error bind]. unfold get. cbn [nth_error bind].
  destruct (nth_error k i) as [[|]|]; cbn [bind]; try reflexivity.
  destruct (nth_error g i) as [q|] eqn:Q; [|apply nth_error_None in Q; lia]. destruct (nth_error g' i) as [q'|] eqn:Q'; [|apply nth_error_None in Q'; lia]. cbn [bind]. now rewrite (XR q q').
Qed.
Lemma corrected_local c (u u' g g' : grid) i : corrected o svd ROT m c u = Ok g -> corrected o svd ROT m c u' = Ok g' -> nth_error u i = nth_error u' i -> nth_error g i = nth_error g' i.
Proof using.
  unfold corrected. intros E E' H. apply bind_ok in E, E'. destruct E as (a & A & E), E' as (b & B & E').
  assert (X : nth_error (limit_concentration o u) i = nth_error (limit_concentration o u') i) by (unfold limit_concentration; destruct (MULTI o); [rewrite !nth_error_map, H; reflexivity|exact H]).
  pose proof (each_local _ _ _ _ _ _ _ A B X) as Y. destruct (_ && _)%bool.
  - exact (each_local _ _ _ _ _ _ _ E E' Y).
  - injection E as <-. injection E' as <-. exact Y.
Qed.
(** if neither field is contorted after the corrections, the corrections act on each cell by itself *)
Lemma post_local c (u u' v v' g g' : grid) i : corrected o svd ROT m c u = Ok v -> corrected o svd ROT m c u' = Ok v' -> contorted o svd tol v = Ok false -> contorted o svd tol v' = Ok false ->
  post o svd ROT tol m c u = Ok g -> post o svd ROT tol m c u' = Ok g' -> nth_error u i = nth_error u' i -> nth_error g i = nth_error g' i.
Proof using.
  intros C C' K K' E E' H. unfold post in E, E'. rewrite C in E. rewrite C' in E'. cbn [bind] in E, E'. rewrite K in E. rewrite K' in E'. cbn [bind] in E, E'. injection E as <-. injection E' as <-.
  exact (corrected_local c u u' v v' i C C' H).
Qed.
End One.
