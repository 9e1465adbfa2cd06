(** C83, C84, C85: a step of the program and a whole run of it, with one material and no level set. *)
From Coq Require Import Reals Lia Lra ZArith.
From Verif Require Import Base Options Sum EqModel EqSpec FvModel FvBody FvProps WenoModel DgModel GridModel StepperModel StepperProps AderModel AderProof3 AderProps HomogModel SplitProps
  UtilsModel IterModel IterProof2 IterProps PhysModel Split3Props SafeProof RunModel RunProof RunProof2.
Import List ListNotations.
Open Scope nat_scope.

Lemma total_is_total1 (d : vec) k : forall g : grid, total g k = total1 (length g) (fun a => nth a g d) k.
Proof.
  induction g as [|q g IH]; [reflexivity|]. cbn [total fold_right length]. unfold total1. rewrite rsum_S_l. cbn [nth]. unfold total, total1 in IH. rewrite IH. reflexivity.
Qed.
Lemma total2_total1 nx ny (x : nat -> vec) k : total2 nx ny (fun a b => x (a * ny + b)) k = total1 (nx * ny) x k.
Proof. unfold total2, total1. rewrite rsum_prod. reflexivity. Qed.

Section Run.
Variable o : options.
Variables NODES WGHTS : nat -> R.
Variables ENDVALS DERVALS : nat -> nat -> R.
Variables (SIG : nat -> nat -> R) (LAMS LAMC EPS : R) (inv : stencil -> (nat -> R) -> nat -> R).
Variable wallf : nat -> nat -> num -> num.
Variable ph : matpar -> phys.
Variable prim : matpar -> option ((num -> num) * (num -> num)).
Variable Phi : matpar -> R -> nat -> list num -> res (option (nat -> option nodal)).
Variable valid : matpar -> nodal -> bool.
Variable ode : matpar -> R -> num -> num.
Variables (SPLIT HALF_STEP : bool) (FLUX : nat) (nX : list nat) (bt : nat -> nat) (dX : list R).
Variable team : matpar -> grid -> list bool -> R -> nat * list nat.
Notation advance := (run_advance o NODES WGHTS ENDVALS DERVALS SIG LAMS LAMC EPS inv wallf ph prim Phi valid ode SPLIT HALF_STEP FLUX nX bt dX team).
Variable svd : Mat3.mat3 -> Mat3.vec3 * Mat3.mat3.
Variable speed : vec -> nat -> matpar -> option R.
Variable fill : list grid -> list (list bool) -> grid -> R -> res (grid * list grid * list (list bool)).
Variable nan : grid -> bool.
Variable ROT : bool.
Variables (CFL tf tol : R) (m : matpar).
Notation prog := (program o NODES WGHTS ENDVALS DERVALS SIG LAMS LAMC EPS inv wallf ph prim Phi valid ode SPLIT HALF_STEP FLUX nX bt dX team svd speed fill nan ROT CFL tf tol [m]).
Notation cells := (fold_right Nat.mul 1 nX).

(** an admissible configuration: viscous, one of the three fluxes, non-zero spacings; a grid of one dimension with at least N cells, or of two with at least N in each; boundary
    types that exist; at least one thread; a predictor that returns, on whatever it is given, a cell or a NaN *)
Record configured : Prop := {
  c_runs : runs o FLUX (spacing dX); c_dims : good_dims o nX; c_bt : forall k, k < 4 -> bt k <= 5; c_team : forall m g k dt, 0 < fst (team m g k dt);
  c_pred : SPLIT = false -> forall m dt, returns_predictor (N o) (option nodal) (Phi m dt) (length nX) }.

Lemma cells_ext : good_dims o nX -> extended_dimensions nX 0 = cells.
Proof using. intros [(nx & -> & H)|(nx & ny & -> & H & Hy)]; unfold extended_dimensions; cbn; lia. Qed.

(** C83. Whatever the state (huge, negative, ...) and the mask, and however many threads there are and however they are interleaved, a step returns: a state of the same size, or a NaN
    somewhere in it ([NoFuel]: a schedule that stops before the threads do). No read or write is out of range, or of a cell nobody wrote. *)
Theorem step_safe g k dt : configured -> length g = cells -> length k = cells -> safe_outcome (fun g' => length g' = length g) (advance m g k dt).
Proof using.
  intros [HR HD HB HT HP] Lg Lk. rewrite <- (cells_ext HD) in *. unfold safe_outcome.
  exact (advance_returns o NODES WGHTS ENDVALS DERVALS SIG LAMS LAMC EPS inv wallf ph prim Phi valid ode SPLIT HALF_STEP FLUX nX bt dX team HR HD HB HT HP m g k dt Lg Lk).
Qed.

(** The same for arrays that may hold NaN; the threads can always go on to the end, and what they then leave does not depend on the schedule. *)
Theorem threads_safe_and_deterministic dt u ub mask n : configured -> blen u = cells -> initialised u -> blen ub = extended_dimensions nX (N o) -> initialised ub ->
  blen mask = extended_dimensions nX 1 -> initialised mask -> 0 < n ->
  exists u', blen u' = cells /\ initialised u' /\ forall sched,
    exists c, run_para o NODES WGHTS ENDVALS DERVALS SIG LAMS LAMC EPS inv ph prim Phi valid ode SPLIT HALF_STEP FLUX nX dX m dt n sched u ub mask = Ok c /\ (finished c -> same u' (snd c)) /\
    exists more c', run_para o NODES WGHTS ENDVALS DERVALS SIG LAMS LAMC EPS inv ph prim Phi valid ode SPLIT HALF_STEP FLUX nX dX m dt n (sched ++ more) u ub mask = Ok c' /\ finished c'.
Proof using.
  intros [HR HD HB HT HP] Lu Iu Lb Ib Lm Im Hn. rewrite <- (cells_ext HD) in Lu.
  destruct (para_returns o NODES WGHTS ENDVALS DERVALS SIG LAMS LAMC EPS inv ph prim Phi valid ode SPLIT HALF_STEP FLUX nX dX HR HD HP m dt u ub mask n Lu Iu Lb Ib Lm Im Hn) as [u' [L [I H]]].
  exists u'. split; [rewrite L, Lu; apply cells_ext, HD|]. split; [exact I|exact H].
Qed.

(** C84. A whole run ends, if it ends, with its output or with a NaN. *)
Theorem run_never_undefined fuel u : configured -> LSET o = 0 -> mp_void m = false -> (0 < CFL)%R -> (0 < tf)%R -> (forall g, nan g = false) -> length u = cells ->
  safe_outcome (fun r => s_t (fst r) = tf /\ length (s_u (fst r)) = cells /\ snd r = false) (prog fuel u).
Proof using.
  intros C HL HM HC HT HN Lu. pose proof C as [[HV _] _ _ _ _]. unfold program, iterator.
  assert (HA : forall g dt, length g = cells -> safe_outcome (fun g' => length g' = cells) (advance m g (repeat true cells) dt)).
  { intros g dt Lg. destruct (step_safe g (repeat true cells) dt C Lg (repeat_length _ _)) as [(x & E & L)|X]; [left; exists x; split; [exact E|congruence]|right; exact X]. }
  destruct (run_safe o svd speed fill advance nan ROT dX CFL tf tol m HL HM cells HV HC HT HN HA fuel (init [m] u)) as [([s b] & E & Hb)|X].
  - apply inv_init; assumption.
  - exact Lu.
  - exists u. reflexivity.
  - cbn [init s_masks length repeat]. rewrite Lu. reflexivity.
  - left. exists (s, b). cbn [fst snd] in *. subst b. split; [exact E|]. split; [|split; [|reflexivity]].
    + apply (run_ends_at_final_time o svd speed fill advance nan ROT dX CFL tf tol [m] u fuel s HC HT E).
    + assert (LE : length (s_u (init [m] u)) = cells) by exact Lu.
      destruct (run_keeps o svd speed fill advance nan ROT dX CFL tf tol m HL HM (fun _ g => length g = cells) (fun _ => True) cells) with (fuel := fuel) (s := init [m] u) (s' := s) (b := false) as [K _]; auto.
      * intros t v c dt u1 u2 u' _ _ Lv _ EA _ _ EP. destruct (post_returns o svd ROT tol m HL (S c) u1 HV) as (x & X & LX). rewrite EP in X. injection X as <-.
        destruct (HA v dt Lv) as [(y & Y & LY)|[Y|Y]]; rewrite EA in Y; try discriminate. injection Y as <-. split; congruence.
      * exists u. reflexivity.
      * cbn [init s_masks length repeat]. rewrite Lu. reflexivity.
      * intros i x Hx. left. cbn [init s_ret ret0 bdat] in Hx. congruence.
  - right. exact X.
Qed.

(** C85. *)
(** what component k of a cell gains per unit of time: with the split solver, from the relaxation; with the ADER solver, nothing if component k has no source *)
Definition gains (k : nat) (c : R) : Prop :=
  if SPLIT then (forall h, ode m h None = None) /\ (forall h, adds (ode m h) k (c * h)) else c = 0%R /\ forall Q, EqModel.source (ph m) Q k = 0%R.
Lemma step_totals g dt g' k c : configured -> (forall k, k < 4 -> bt k = PERIODIC) -> (length nX = 2 -> NO_CORNERS o = false) -> length g = cells ->
  advance m g (repeat true cells) dt = Ok g' -> k < 5 -> gains k c -> total g' k = (total g k + INR cells * (c * dt))%R.
Proof using.
  intros [HR HD HB HT HP] HPer HNC Lg EA Hk HG. set (d := (fun _ => 0%R) : vec).
  destruct (advance_serial o NODES WGHTS ENDVALS DERVALS SIG LAMS LAMC EPS inv wallf ph prim Phi valid ode SPLIT HALF_STEP FLUX nX bt dX team HR HD HB HT HP m g (repeat true cells) dt g' d) as (ub & mb & u1 & Eb & Em & Es & Hu1 & Lg').
  { rewrite (cells_ext HD). exact Lg. } { rewrite (cells_ext HD). apply repeat_length. } { exact HNC. } { exact EA. }
  rewrite (total_is_total1 d k g'), (total_is_total1 d k g), Lg', Lg. rewrite Lg in Hu1.
  pose proof (grid_buf_holds g d) as Hu. rewrite Lg in Hu.
  assert (FM : full_mask nX mb) by (exists (mask_buf (repeat true cells)), (balloc (extended_dimensions nX 1)); split; [apply mask_buf_true|split; [reflexivity|exact Em]]).
  assert (CK : conserved o k) by (left; exact Hk). unfold gains in HG. unfold serial_step in Es.
  destruct HD as [(nx & -> & Hn)|(nx & ny & -> & Hn & Hy)].
  - cbn [fold_right] in *. rewrite Nat.mul_1_r in *. destruct SPLIT.
    + destruct HG as [H0 H1]. rewrite (split_periodic_conserves_1d _ _ _ _ _ _ _ _ _ _ _ _ _ _ _ _ _ _ wallf nx bt (grid_buf g) (balloc (extended_dimensions [nx] (N o))) ub mb (fun a => nth a g d) u1 (fun a => nth a g' d) HR Hn (HPer 0 ltac:(lia)) (HPer 1 ltac:(lia)) (H0 _) Hu FM eq_refl Eb Es Hu1 k _ CK (H1 _)). field.
    + destruct HG as [-> H1]. rewrite (ader_periodic_conserves_1d _ _ _ _ _ _ _ _ _ _ _ _ _ _ _ _ wallf nx bt (grid_buf g) (balloc (extended_dimensions [nx] (N o))) ub mb (fun a => nth a g d) u1 (fun a => nth a g' d) HR Hn (HPer 0 ltac:(lia)) (HPer 1 ltac:(lia)) Hu FM eq_refl Eb Es Hu1 k CK H1). ring.
  - cbn [fold_right] in *. rewrite Nat.mul_1_r in *. rewrite <- !total2_total1. destruct SPLIT.
    + destruct HG as [H0 H1]. rewrite (split_periodic_conserves_2d_partial _ _ _ _ _ _ _ _ _ _ _ _ _ _ _ _ _ _ wallf nx ny bt (grid_buf g) (balloc (extended_dimensions [nx; ny] (N o))) ub mb (fun a => nth a g d) u1 (fun a => nth a g' d) HR (HNC eq_refl) Hn Hy HPer (H0 _) Hu FM eq_refl Eb Es Hu1 k _ CK (H1 _)). field.
    + destruct HG as [-> H1]. rewrite (ader_periodic_conserves_2d_partial _ _ _ _ _ _ _ _ _ _ _ _ _ _ _ _ wallf nx ny bt (grid_buf g) (balloc (extended_dimensions [nx; ny] (N o))) ub mb (fun a => nth a g d) u1 (fun a => nth a g' d) HR (HNC eq_refl) Hn Hy HPer Hu FM eq_refl Eb Es Hu1 k CK H1). ring.
Qed.

Hypothesis HC : configured.
Hypothesis HL : LSET o = 0.
Hypothesis HM : mp_void m = false.
Hypothesis HPer : forall k, k < 4 -> bt k = PERIODIC.
Hypothesis HNC : length nX = 2 -> NO_CORNERS o = false.

(** the states and times a run outputs: what it is in at the end, and the snapshots; an unused slot is empty *)
Definition holds_of_output (P : R -> grid -> Prop) (s : state) : Prop :=
  P (s_t s) (s_u s) /\ forall i g t, bdat (s_ret s) i = Some (g, t) -> (g = [] /\ t = 0%R) \/ P t g.
Notation tested := (tested o svd speed fill advance nan ROT dX CFL tf tol m).
Lemma run_invariant (P : R -> grid -> Prop) (A : grid -> Prop) fuel u s b : length u = cells -> P 0%R u ->
  (forall t g dt u1 u2 c u', P t g -> length g = cells -> advance m g (repeat true cells) dt = Ok u1 -> corrected o svd ROT m c u1 = Ok u2 -> A u2 -> post o svd ROT tol m c u1 = Ok u' -> P (t + dt)%R u') ->
  (forall g, tested (init [m] u) g -> A g) -> prog fuel u = Ok (s, b) -> holds_of_output P s.
Proof using HC HL HM.
  intros Lu P0 HP HA E. pose proof HC as [[HV _] HD _ _ _].
  destruct (run_keeps o svd speed fill advance nan ROT dX CFL tf tol m HL HM P A cells) with (fuel := fuel) (s := init [m] u) (s' := s) (b := b) as [K1 K2]; auto.
  - intros t g c dt u1 u2 u' Pg _ Lg _ EA EC HA2 EP. split; [exact (HP t g dt u1 u2 (S c) u' Pg Lg EA EC HA2 EP)|].
    destruct (post_returns o svd ROT tol m HL (S c) u1 HV) as (x & X & LX). rewrite EP in X. injection X as <-. rewrite LX.
    destruct (step_safe g (repeat true cells) dt HC Lg (repeat_length _ _)) as [(y & Y & LY)|[Y|Y]]; rewrite EA in Y; try discriminate. injection Y as <-. congruence.
  - exists u. reflexivity.
  - cbn [init s_masks length repeat]. rewrite Lu. reflexivity.
  - intros i x Hx. left. cbn [init s_ret ret0 bdat] in Hx. congruence.
  - split; [exact K1|]. intros i g t Hi. destruct (K2 i _ Hi) as [X|X]; [left; injection X as -> ->; auto|right; exact X].
Qed.

(** The total of the mass, and of each momentum, at any time that is output is what it was at the start, and what the sources have added. *)
Theorem run_conserves fuel u s b k c : length u = cells -> prog fuel u = Ok (s, b) -> k < 5 -> k <> 1 -> gains k c ->
  holds_of_output (fun t g => total g k = total u k + INR cells * (c * t))%R s.
Proof using HC HL HM HPer HNC.
  intros Lu E Hk H1 HG. pose proof HC as [[HV _] _ _ _ _]. apply (run_invariant _ (fun _ => True) fuel u s b Lu); auto; [ring|].
  intros t g dt u1 u2 n u' IH Lg EA _ _ EP. destruct (post_totals o svd ROT tol m HL HM n u1 u' HV EP) as [_ [T _]].
  rewrite (T k Hk H1), (step_totals g dt u1 k c HC HPer HNC Lg EA Hk HG), IH. ring.
Qed.
(** The total energy too as long as no state is found contorted; a reset of the distortion takes away the elastic energy of the state, so the energy does not grow if that is not negative. *)
Theorem run_energy fuel u s b c : length u = cells -> prog fuel u = Ok (s, b) -> gains 1 c ->
  ((forall g, tested (init [m] u) g -> contorted o svd tol g = Ok false) -> holds_of_output (fun t g => total g 1 = total u 1%nat + INR cells * (c * t))%R s) /\
  ((forall g, tested (init [m] u) g -> contorted o svd tol g = Ok true -> (0 <= elastic m g)%R) -> holds_of_output (fun t g => total g 1 <= total u 1%nat + INR cells * (c * t))%R s).
Proof using HC HL HM HPer HNC.
  intros Lu E HG. pose proof HC as [[HV _] _ _ _ _]. split; intros HA.
  - apply (run_invariant _ (fun g => contorted o svd tol g = Ok false) fuel u s b Lu); auto; [ring|].
    intros t g dt u1 u2 n u' IH Lg EA EC A2 EP. destruct (post_totals o svd ROT tol m HL HM n u1 u' HV EP) as [_ [_ (x & X & T)]]. rewrite EC in X. injection X as <-.
    destruct T as [[_ T]|[T _]]; [|rewrite A2 in T; discriminate]. rewrite T, (step_totals g dt u1 1 c HC HPer HNC Lg EA ltac:(lia) HG), IH. ring.
  - apply (run_invariant _ (fun g => contorted o svd tol g = Ok true -> (0 <= elastic m g)%R) fuel u s b Lu); auto; [lra|].
    intros t g dt u1 u2 n u' IH Lg EA EC A2 EP. destruct (post_totals o svd ROT tol m HL HM n u1 u' HV EP) as [_ [_ (x & X & T)]]. rewrite EC in X. injection X as <-.
    pose proof (step_totals g dt u1 1 c HC HPer HNC Lg EA ltac:(lia) HG) as S1.
    replace (total u 1 + INR cells * (c * (t + dt)))%R with (total u 1 + INR cells * (c * t) + INR cells * (c * dt))%R by ring.
    destruct T as [[_ T]|[C T]]; [lra|]. specialize (A2 C). lra.
Qed.
End Run.
Print Assumptions step_safe.
Print Assumptions threads_safe_and_deterministic.
Print Assumptions run_never_undefined.
Print Assumptions run_conserves.
Print Assumptions run_energy.
