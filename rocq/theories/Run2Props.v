(** C84, C85, C86: runs that complete; conservation with the relaxation the code has; steady uniform states. *)
From Coq Require Import Reals Lia Lra ZArith.
From Verif Require Import Base Options Sum EqModel EqSpec FvModel FvBody FvProps PolyModel WenoModel WenoProps DgModel DgSpec DgProof2 DgProps GridModel StepperModel StepperProps AderModel AderProof3 AderProof4
  AderProps Ader2Props Ader3Props HomogModel SplitProps Split2Props UtilsModel IterModel IterSpec IterProof2 IterProps PhysModel RelaxModel Split3Props SafeProof RunModel RunProof RunProof2 RunProps RunProof3 RunProof4.
Import List ListNotations.
Open Scope nat_scope.

Lemma take_holds b n x : holds n b x -> forall k a, a + k <= n -> take_cells b k a = Ok (map x (seq a k)).
Proof.
  intros [L H]. induction k as [|k IH]; intros a Ha; cbn [take_cells seq map]; [reflexivity|].
  rewrite (rd_ok b a (Some (x a))) by (try (apply H); lia). cbn [bind]. rewrite IH by lia. reflexivity.
Qed.
Lemma buf_grid_holds b n x : holds n b x -> buf_grid b = Ok (map x (seq 0 n)).
Proof. intros H. pose proof H as [L _]. unfold buf_grid. rewrite L. apply (take_holds b n x H). lia. Qed.
Lemma map_const {A B} (c : B) : forall l : list A, map (fun _ => c) l = repeat c (length l).
Proof. induction l; cbn; congruence. Qed.
Lemma repeat_holds (Q : vec) n : holds n (grid_buf (repeat Q n)) (fun _ => Q).
Proof.
  split; [cbn; apply repeat_length|]. intros c Hc. cbn [grid_buf bdat]. rewrite (nth_error_nth' _ Q) by (rewrite repeat_length; exact Hc). rewrite nth_repeat. reflexivity.
Qed.

Lemma Ok_inj {A} (x y : A) : Ok x = Ok y -> x = y.
Proof. intros H. injection H as H. exact H. Qed.

Section Run.
Variable o : options.
Variables NODES WGHTS : nat -> R.
Variables ENDVALS DERVALS : nat -> nat -> R.
Variables (SIG : nat -> nat -> R) (LAMS LAMC EPS : R) (inv : stencil -> (nat -> R) -> nat -> R).
Variable wallf : nat -> nat -> num -> num.
Variable ph : matpar -> phys.
Variable prim : matpar -> option ((num -> num) * (num -> num)).
Variable Phi : matpar -> R -> nat -> list num -> res (option (nat -> option nodal)).
Variable valid : matpar -> nodal -> bool.
Variable ode : matpar -> R -> num -> num.
Variables (SPLIT HALF_STEP : bool) (FLUX : nat) (nX : list nat) (bt : nat -> nat) (dX : list R).
Variable team : matpar -> grid -> list bool -> R -> nat * list nat.
Notation advance := (run_advance o NODES WGHTS ENDVALS DERVALS SIG LAMS LAMC EPS inv wallf ph prim Phi valid ode SPLIT HALF_STEP FLUX nX bt dX team).
Notation serial := (serial_step o NODES WGHTS ENDVALS DERVALS SIG LAMS LAMC EPS inv ph prim Phi valid ode SPLIT HALF_STEP FLUX nX dX).
Variable svd : Mat3.mat3 -> Mat3.vec3 * Mat3.mat3.
Variable speed : vec -> nat -> matpar -> option R.
Variable fill : list grid -> list (list bool) -> grid -> R -> res (grid * list grid * list (list bool)).
Variable nan : grid -> bool.
Variable ROT : bool.
Variables (CFL tf tol : R) (m : matpar).
Notation prog := (program o NODES WGHTS ENDVALS DERVALS SIG LAMS LAMC EPS inv wallf ph prim Phi valid ode SPLIT HALF_STEP FLUX nX bt dX team svd speed fill nan ROT CFL tf tol [m]).
Notation cells := (fold_right Nat.mul 1 nX).
Hypothesis HC : configured o Phi SPLIT FLUX nX bt dX team.
Hypothesis HF : finishing o NODES WGHTS ENDVALS DERVALS SIG LAMS LAMC EPS inv wallf ph prim Phi valid ode SPLIT HALF_STEP FLUX nX bt dX team.

Section Loop.
Hypothesis HL : LSET o = 0.
Hypothesis HM : mp_void m = false.
Hypothesis HCFL : (0 < CFL)%R.
Hypothesis Htf : (0 < tf)%R.
Hypothesis HN : forall g, nan g = false.
(** the wave speed estimates are bounded *)
Definition slow (M : R) : Prop := (0 < M)%R /\ forall q m c, (forall d, d < length dX -> speed q d m = Some (c d)) -> (speed_sum c 0 dX <= M)%R.
Lemma slow_rate M : slow M -> forall q m r, rate speed dX q m = Some r -> (r <= M)%R.
Proof using.
  clear HL HM HCFL Htf HN. intros [_ H] q m' r E. destruct (rate_some speed q m' dX 0 _ _ E) as (a0 & c & E0 & G & ->). injection E0 as <-. rewrite Rplus_0_l. apply (H q m'). intros d Hd. apply G. lia.
Qed.
(** the run, with a property of the states that a step keeps *)
Lemma loop_ends (P : grid -> Prop) (NAN : Prop) M u fuel : slow M -> (tf < INR fuel * (CFL / M / 5))%R -> (forall g, P g -> length g = cells) -> P u ->
  (forall g dt, P g -> (exists u1, advance m g (repeat true cells) dt = Ok u1 /\ forall c u', post o svd ROT tol m c u1 = Ok u' -> P u') \/ (NAN /\ advance m g (repeat true cells) dt = Throw "NaN")) ->
  (exists s, prog fuel u = Ok (s, false) /\ s_t s = tf /\ bdat (s_ret s) 99 = Some (s_u s, tf)) \/ (NAN /\ prog fuel u = Throw "NaN").
Proof using HC HL HM HCFL Htf HN.
  intros HS HFu HP Pu HA. pose proof HC as [[HV _] _ _ _ _]. pose proof (HP u Pu) as Lu.
  destruct (run_ends o svd speed fill advance nan ROT dX CFL tf tol m HL HM P NAN cells M HV HCFL Htf HN (proj1 HS) (slow_rate M HS) HP HA fuel (init [m] u)) as [[s E]|X].
  - apply inv_init; assumption.
  - exact Pu.
  - exists u. reflexivity.
  - cbn [init s_masks length repeat]. rewrite Lu. reflexivity.
  - right. cbn [init s_t]. lra.
  - left. exists s. split; [exact E|]. apply (run_ends_at_final_time o svd speed fill advance nan ROT dX CFL tf tol [m] u fuel s HCFL Htf E).
  - right. exact X.
Qed.

(** C84: with bounded wave speeds the run ends, at the final time or with a NaN; the number of turns has a bound that only depends on the bound on the speeds *)
Theorem run_ends_or_nan M u fuel : slow M -> (tf < INR fuel * (CFL / M / 5))%R -> length u = cells ->
  (exists s, prog fuel u = Ok (s, false) /\ s_t s = tf /\ bdat (s_ret s) 99 = Some (s_u s, tf)) \/ prog fuel u = Throw "NaN".
Proof using HC HF HL HM HCFL Htf HN.
  intros HS HFu Lu. pose proof HC as [[HV _] _ _ _ _].
  destruct (loop_ends (fun g => length g = cells) True M u fuel HS HFu ltac:(auto) Lu) as [X|[_ X]]; [|left; exact X|right; exact X].
  intros g dt Lg. pose proof (HF m g (repeat true cells) dt Lg (repeat_length _ _)) as EF.
  destruct (step_safe o NODES WGHTS ENDVALS DERVALS SIG LAMS LAMC EPS inv wallf ph prim Phi valid ode SPLIT HALF_STEP FLUX nX bt dX team m g (repeat true cells) dt HC Lg (repeat_length _ _)) as [(u1 & E & L)|[E|E]].
  - left. exists u1. split; [exact E|]. intros c u' EP. destruct (post_returns o svd ROT tol m HL c u1 HV) as (x & X & LX). rewrite EP in X. injection X as <-. congruence.
  - right. split; [exact I|exact E].
  - rewrite E in EF. discriminate.
Qed.

Hypothesis HNC : length nX = 2 -> NO_CORNERS o = false.
(** functions that give numbers on numbers: then a run completes *)
Definition numeric (nodes : list R) (bs : list poly) : Prop :=
  length nodes = N o /\ weno_setup nodes bs inv SIG LAMS LAMC EPS /\ total_prim (prim m) /\ total_walls wallf bt (length nX) /\
  if SPLIT then (forall h, total_cell (ode m h)) /\ (HALF_STEP = true -> forall q, valid m q = true) else forall dt, total_predictor o (Phi m dt) (length nX).
Lemma step_numeric nodes bs g k dt : numeric nodes bs -> length g = cells -> length k = cells -> exists g', advance m g k dt = Ok g' /\ length g' = cells.
Proof using HC HF HNC.
  clear HL HM HCFL Htf HN. intros (Ln & HW & HP & HWa & HT) Lg Lk. pose proof HC as [HR HD _ _ _].
  destruct (advance_is o NODES WGHTS ENDVALS DERVALS SIG LAMS LAMC EPS inv wallf ph prim Phi valid ode SPLIT HALF_STEP FLUX nX bt dX team HC m g k dt Lg Lk HNC
    (HF m g _ dt Lg Lk)) as (ub & mb & u1 & Eb & Em & Es & L1 & EA).
  destruct (mask_return o (mask_buf k) nX HD ltac:(rewrite (cells_ext o nX HD); exact Lk) (mask_buf_init k)) as [mb' [Em' [Lm Im]]]. rewrite Em in Em'. apply Ok_inj in Em'. subst mb'.
  pose proof (grid_buf_holds g (fun _ => 0%R)) as Hu. rewrite Lg in Hu. rewrite EA.
  assert (X : exists x, holds cells u1 x).
  { unfold serial_step in Es. destruct HD as [(nx & -> & Hn)|(nx & ny & -> & Hn & Hy)]; cbn [fold_right length] in *; rewrite Nat.mul_1_r in *; destruct SPLIT.
    - destruct HT as [HO HV]. destruct (split_total_1d o (ph m) NODES WGHTS ENDVALS DERVALS FLUX dt (spacing dX) nodes bs (valid m) SIG LAMS LAMC EPS inv (prim m) _ HALF_STEP wallf HR Ln HW HP (HO (dt / 2)%R) HV
        nx bt (grid_buf g) (balloc (extended_dimensions [nx] (N o))) mb _ (proj2 Hn) HWa Hu Lm Im eq_refl) as (ub' & u' & x & Eb' & Es' & H'). rewrite Eb in Eb'. injection Eb' as <-. rewrite Es in Es'. injection Es' as <-. eauto.
    - destruct (ader_total_1d o (ph m) NODES WGHTS ENDVALS DERVALS FLUX dt (spacing dX) nodes bs SIG LAMS LAMC EPS inv (prim m) _ wallf HR Ln HW HP
        nx bt (grid_buf g) (balloc (extended_dimensions [nx] (N o))) mb _ (proj2 Hn) HWa (HT dt) Hu Lm Im eq_refl) as (ub' & u' & x & Eb' & Es' & H'). rewrite Eb in Eb'. injection Eb' as <-. rewrite Es in Es'. injection Es' as <-. eauto.
    - destruct HT as [HO HV]. destruct (split_total_2d o (ph m) NODES WGHTS ENDVALS DERVALS FLUX dt (spacing dX) nodes bs (valid m) SIG LAMS LAMC EPS inv (prim m) _ HALF_STEP wallf HR Ln HW HP (HO (dt / 2)%R) HV
        nx ny bt (grid_buf g) (balloc (extended_dimensions [nx; ny] (N o))) mb _ (proj2 Hn) Hy ltac:(intros Y; rewrite (HNC eq_refl) in Y; discriminate) HWa Hu Lm Im eq_refl) as (ub' & u' & x & Eb' & Es' & H'). rewrite Eb in Eb'. injection Eb' as <-. rewrite Es in Es'. injection Es' as <-. eauto.
    - destruct (ader_total_2d o (ph m) NODES WGHTS ENDVALS DERVALS FLUX dt (spacing dX) nodes bs SIG LAMS LAMC EPS inv (prim m) _ wallf HR Ln HW HP
        nx ny bt (grid_buf g) (balloc (extended_dimensions [nx; ny] (N o))) mb _ (proj2 Hn) Hy ltac:(intros Y; rewrite (HNC eq_refl) in Y; discriminate) HWa (HT dt) Hu Lm Im eq_refl) as (ub' & u' & x & Eb' & Es' & H'). rewrite Eb in Eb'. injection Eb' as <-. rewrite Es in Es'. injection Es' as <-. eauto. }
  destruct X as [x Hx]. rewrite (buf_grid_holds _ _ _ Hx). eexists. split; [reflexivity|]. rewrite map_length, seq_length. reflexivity.
Qed.
Theorem run_completes nodes bs M u fuel : numeric nodes bs -> slow M -> (tf < INR fuel * (CFL / M / 5))%R -> length u = cells ->
  exists s, prog fuel u = Ok (s, false) /\ s_t s = tf /\ bdat (s_ret s) 99 = Some (s_u s, tf).
Proof using HC HF HL HM HCFL Htf HN HNC.
  intros HNu HS HFu Lu. pose proof HC as [[HV _] _ _ _ _].
  destruct (loop_ends (fun g => length g = cells) False M u fuel HS HFu ltac:(auto) Lu) as [X|[[] _]]; [|exact X].
  intros g dt Lg. left. destruct (step_numeric nodes bs g (repeat true cells) dt HNu Lg (repeat_length _ _)) as (u1 & E & L). exists u1. split; [exact E|].
  intros c u' EP. destruct (post_returns o svd ROT tol m HL c u1 HV) as (x & X & LX). rewrite EP in X. injection X as <-. congruence.
Qed.

(** C86 *)
Lemma steady_run Q M fuel : ROT = false -> uncorrected o svd tol m Q ->
  (forall dt, advance m (repeat Q cells) (repeat true cells) dt = Ok (repeat Q cells)) -> slow M -> (tf < INR fuel * (CFL / M / 5))%R ->
  exists s, prog fuel (repeat Q cells) = Ok (s, false) /\ holds_of_output (fun _ g => g = repeat Q cells) s /\ s_t s = tf.
Proof using HC HL HM HCFL Htf HN.
  intros HRot HU HA HS HFu. pose proof HC as [[HV _] _ _ _ _].
  destruct (loop_ends (fun g => g = repeat Q cells) False M (repeat Q cells) fuel HS HFu) as [(s & E & T & _)|[[] _]]; auto.
  - intros g ->. apply repeat_length.
  - intros g dt ->. left. eexists. split; [apply HA|]. intros c u' EP. rewrite (uncorrected_post o svd ROT tol m HL HM Q cells c HV HRot HU) in EP. now injection EP as <-.
  - exists s. split; [exact E|]. split; [|exact T].
    refine (run_invariant o NODES WGHTS ENDVALS DERVALS SIG LAMS LAMC EPS inv wallf ph prim Phi valid ode SPLIT HALF_STEP FLUX nX bt dX team svd speed fill nan ROT CFL tf tol m HC HL HM (fun _ g => g = repeat Q cells) (fun _ => True) fuel _ s false (repeat_length _ _) eq_refl _ _ E); auto.
    intros t g dt u1 u2 c u' -> _ EA _ _ EP. rewrite HA in EA. injection EA as <-. rewrite (uncorrected_post o svd ROT tol m HL HM Q cells c HV HRot HU) in EP. now injection EP as <-.
Qed.
End Loop.
End Run.

(** ** C86 with the tables of a basis: a uniform state that the relaxation, the walls and the corrections leave alone stays as it is, exactly, through a whole run *)
Section Steady.
Variable o : options.
Variables (nodes : list R) (bs : list poly) (w : nat -> R).
Variables (SIG : nat -> nat -> R) (LAMS LAMC EPS : R) (inv : stencil -> (nat -> R) -> nat -> R).
Variable wallf : nat -> nat -> num -> num.
Variable ph : matpar -> phys.
Variable prim : matpar -> option ((num -> num) * (num -> num)).
Variable valid : matpar -> nodal -> bool.
Variable ode : matpar -> R -> num -> num.
Variables (HALF_STEP : bool) (FLUX : nat) (nX : list nat) (bt : nat -> nat) (dX : list R).
Variable team : matpar -> grid -> list bool -> R -> nat * list nat.
Variable svd : Mat3.mat3 -> Mat3.vec3 * Mat3.mat3.
Variable speed : vec -> nat -> matpar -> option R.
Variable fill : list grid -> list (list bool) -> grid -> R -> res (grid * list grid * list (list bool)).
Variable nan : grid -> bool.
Variables (CFL tf tol : R) (m : matpar) (Q : vec).
Notation cells := (fold_right Nat.mul 1 nX).
Notation NODES := (fun k => nth k nodes 0%R).
Notation ENDVALS := (end_values bs).
Notation DERVALS := (Dv bs nodes).
(** what both solvers need *)
Record at_rest : Prop := {
  r_lset : LSET o = 0; r_void : mp_void m = false; r_cfl : (0 < CFL)%R; r_tf : (0 < tf)%R; r_nan : forall g, nan g = false; r_corner : length nX = 2 -> NO_CORNERS o = false;
  r_len : length nodes = N o; r_basis : dg_basis nodes bs w; r_weno : weno_setup nodes bs inv SIG LAMS LAMC EPS; r_prim : prim_ok (prim m) Q; r_walls : keeps_state wallf Q (length nX) bt;
  r_corrections : uncorrected o svd tol m Q }.

Section Split.
Variable Phi : matpar -> R -> nat -> list num -> res (option (nat -> option nodal)).
Theorem steady_split M fuel : at_rest -> configured o Phi true FLUX nX bt dX team ->
  finishing o NODES w ENDVALS DERVALS SIG LAMS LAMC EPS inv wallf ph prim Phi valid ode true HALF_STEP FLUX nX bt dX team ->
  (forall h, ode m h (Some Q) = Some Q) -> valid_at o (valid m) HALF_STEP Q (length nX) -> slow dX speed M -> (tf < INR fuel * (CFL / M / 5))%R ->
  exists s, program o NODES w ENDVALS DERVALS SIG LAMS LAMC EPS inv wallf ph prim Phi valid ode true HALF_STEP FLUX nX bt dX team svd speed fill nan false CFL tf tol [m] fuel (repeat Q cells) = Ok (s, false) /\
    holds_of_output (fun _ g => g = repeat Q cells) s /\ s_t s = tf.
Proof using.
  intros [HL HM HC HT HN HNC Ln HB HW HP HK HU] C F HO HV HS HFu. apply (steady_run o NODES w ENDVALS DERVALS SIG LAMS LAMC EPS inv wallf ph prim Phi valid ode true HALF_STEP FLUX nX bt dX team svd speed fill nan false
    CFL tf tol m C HL HM HC HT HN Q M fuel eq_refl HU); auto.
  intros dt. pose proof C as [HR HD _ _ _]. pose proof (repeat_length Q cells) as Lg.
  destruct (advance_is o NODES w ENDVALS DERVALS SIG LAMS LAMC EPS inv wallf ph prim Phi valid ode true HALF_STEP FLUX nX bt dX team C m (repeat Q cells) (repeat true cells) dt Lg (repeat_length _ _) HNC
    (F m _ _ dt Lg (repeat_length _ _))) as (ub & mb & u1 & Eb & Em & Es & _ & EA).
  assert (FM : full_mask nX mb) by (exists (mask_buf (repeat true cells)), (balloc (extended_dimensions nX 1)); split; [apply mask_buf_true|split; [reflexivity|exact Em]]).
  pose proof (repeat_holds Q cells) as Hu. unfold serial_step in Es. rewrite EA. clear EA F.
  assert (X : holds cells u1 (fun _ => Q)); [|rewrite (buf_grid_holds _ _ _ X), map_const, seq_length; reflexivity].
  destruct HD as [(nx & -> & Hn)|(nx & ny & -> & Hn & Hy)]; cbn [fold_right length] in *; rewrite Nat.mul_1_r in *.
  - destruct (split_uniform_1d o (ph m) nodes bs w FLUX dt (spacing dX) (valid m) SIG LAMS LAMC EPS inv (prim m) (ode m (dt / 2)%R) HALF_STEP wallf Q Q Q HR Ln HB HW (HO _) (HO _) HP
      nx bt (grid_buf (repeat Q nx)) (balloc (extended_dimensions [nx] (N o))) mb (proj2 Hn) HK HV Hu FM eq_refl) as (ub' & u' & Eb' & Es' & H'). rewrite Eb in Eb'. injection Eb' as <-. rewrite Es in Es'. injection Es' as <-. exact H'.
  - destruct (split_uniform_2d o (ph m) nodes bs w FLUX dt (spacing dX) (valid m) SIG LAMS LAMC EPS inv (prim m) (ode m (dt / 2)%R) HALF_STEP wallf Q Q Q HR Ln HB HW (HO _) (HO _) HP
      nx ny bt (grid_buf (repeat Q (nx * ny))) (balloc (extended_dimensions [nx; ny] (N o))) mb (proj2 Hn) Hy ltac:(intros Y; rewrite (HNC eq_refl) in Y; discriminate) HK HV Hu FM eq_refl) as (ub' & u' & Eb' & Es' & H').
    rewrite Eb in Eb'. injection Eb' as <-. rewrite Es in Es'. injection Es' as <-. exact H'.
Qed.
End Split.

Variables (DG_IT : nat) (DG_TOL : R) (solve : nat -> nodal -> nodal).
Variable nonlin_solve : (option nodal -> res (option nodal)) -> option nodal -> res (option nodal).
Variables (nan_far : option nodal -> option nodal -> bool) (STIFF STIFF_IG : bool).
(** the predictor the code has *)
Notation Pred := (fun m dt => Phi o (ph m) w ENDVALS DERVALS (Dmat bs NODES w) (Mof nodes bs w) dt (spacing dX) DG_IT DG_TOL solve nonlin_solve (valid m) nan_far STIFF STIFF_IG).
Theorem steady_ader M fuel : at_rest -> configured o Pred false FLUX nX bt dX team ->
  finishing o NODES w ENDVALS DERVALS SIG LAMS LAMC EPS inv wallf ph prim Pred valid ode false HALF_STEP FLUX nX bt dX team ->
  (forall k, EqModel.source (ph m) Q k = 0%R) -> predictor_setup o nodes bs w DG_IT DG_TOL solve nonlin_solve (valid m) STIFF STIFF_IG Q (length nX) -> slow dX speed M -> (tf < INR fuel * (CFL / M / 5))%R ->
  exists s, program o NODES w ENDVALS DERVALS SIG LAMS LAMC EPS inv wallf ph prim Pred valid ode false HALF_STEP FLUX nX bt dX team svd speed fill nan false CFL tf tol [m] fuel (repeat Q cells) = Ok (s, false) /\
    holds_of_output (fun _ g => g = repeat Q cells) s /\ s_t s = tf.
Proof using.
  intros [HL HM HC HT HN HNC Ln HB HW HP HK HU] C F HQ HPr HS HFu. apply (steady_run o NODES w ENDVALS DERVALS SIG LAMS LAMC EPS inv wallf ph prim Pred valid ode false HALF_STEP FLUX nX bt dX team svd speed fill nan false
    CFL tf tol m C HL HM HC HT HN Q M fuel eq_refl HU); auto.
  intros dt. pose proof C as [HR HD _ _ _]. pose proof (repeat_length Q cells) as Lg.
  destruct (advance_is o NODES w ENDVALS DERVALS SIG LAMS LAMC EPS inv wallf ph prim Pred valid ode false HALF_STEP FLUX nX bt dX team C m (repeat Q cells) (repeat true cells) dt Lg (repeat_length _ _) HNC
    (F m _ _ dt Lg (repeat_length _ _))) as (ub & mb & u1 & Eb & Em & Es & _ & EA).
  assert (FM : full_mask nX mb) by (exists (mask_buf (repeat true cells)), (balloc (extended_dimensions nX 1)); split; [apply mask_buf_true|split; [reflexivity|exact Em]]).
  pose proof (repeat_holds Q cells) as Hu. unfold serial_step in Es. rewrite EA. clear EA F.
  assert (X : holds cells u1 (fun _ => Q)); [|rewrite (buf_grid_holds _ _ _ X), map_const, seq_length; reflexivity].
  destruct HD as [(nx & -> & Hn)|(nx & ny & -> & Hn & Hy)]; cbn [fold_right length] in *; rewrite Nat.mul_1_r in *.
  - destruct (ader_uniform_1d o (ph m) nodes bs w FLUX dt (spacing dX) SIG LAMS LAMC EPS inv (prim m) DG_IT DG_TOL solve nonlin_solve (valid m) nan_far STIFF STIFF_IG wallf Q HR Ln HB HW HP HQ
      nx bt (grid_buf (repeat Q nx)) (balloc (extended_dimensions [nx] (N o))) mb (proj2 Hn) HK HPr Hu FM eq_refl) as (ub' & u' & Eb' & Es' & H'). rewrite Eb in Eb'. injection Eb' as <-.
    unfold ader_step in Es'. rewrite Es in Es'. injection Es' as <-. exact H'.
  - destruct (ader_uniform_2d o (ph m) nodes bs w FLUX dt (spacing dX) SIG LAMS LAMC EPS inv (prim m) DG_IT DG_TOL solve nonlin_solve (valid m) nan_far STIFF STIFF_IG wallf Q HR Ln HB HW HP HQ
      nx ny bt (grid_buf (repeat Q (nx * ny))) (balloc (extended_dimensions [nx; ny] (N o))) mb (proj2 Hn) Hy ltac:(intros Y; rewrite (HNC eq_refl) in Y; discriminate) HK HPr Hu FM eq_refl) as (ub' & u' & Eb' & Es' & H').
    rewrite Eb in Eb'. injection Eb' as <-. unfold ader_step in Es'. rewrite Es in Es'. injection Es' as <-. exact H'.
Qed.
End Steady.

(** ** C85 for the split solver with the relaxation the code has: the mass is kept and each momentum grows by the body force *)
Theorem run_code_conserves o NODES WGHTS ENDVALS DERVALS SIG LAMS LAMC EPS inv wallf ph prim Phi valid K sm z svd5 HALF_STEP FLUX nX bt dX team svd speed fill nan ROT CFL tf tol m fuel u s b :
  configured o Phi true FLUX nX bt dX team -> LSET o = 0 -> mp_void m = false -> (forall k, k < 4 -> bt k = PERIODIC) -> (length nX = 2 -> NO_CORNERS o = false) -> length u = fold_right Nat.mul 1 nX ->
  program o NODES WGHTS ENDVALS DERVALS SIG LAMS LAMC EPS inv wallf ph prim Phi valid (fun m h => code_relaxation o (mp_par m) K sm z svd5 h) true HALF_STEP FLUX nX bt dX team svd speed fill nan ROT CFL tf tol [m] fuel u = Ok (s, b) ->
  holds_of_output (fun _ g => total g 0 = total u 0) s /\
  forall i, i < 3 -> holds_of_output (fun t g => total g (2 + i) = total u (2 + i)%nat + INR (length u) * (body (mp_par m) i * t))%R s.
Proof.
  intros C HL HM HP HNC Lu E. pose proof C as [[HV _] _ _ _ _]. rewrite Lu.
  assert (G : forall (k : nat) (c : R), k < 5 -> k <> 1 -> gains ph (fun m h => code_relaxation o (mp_par m) K sm z svd5 h) true m k c -> holds_of_output (fun t g => total g k = total u k + INR (fold_right Nat.mul 1%nat nX) * (c * t))%R s).
  { intros k c. apply (run_conserves o NODES WGHTS ENDVALS DERVALS SIG LAMS LAMC EPS inv wallf ph prim Phi valid (fun m h => code_relaxation o (mp_par m) K sm z svd5 h) true HALF_STEP FLUX nX bt dX team svd speed fill nan ROT CFL tf tol m C HL HM HP HNC fuel u s b k c Lu E). }
  split.
  - destruct (G 0 0%R ltac:(lia) ltac:(lia)) as [A B].
    + split; [reflexivity|]. intros h. rewrite Rmult_0_l. apply relaxation_adds, HV.
    + split; [rewrite A; ring|]. intros i g t Hi. destruct (B i g t Hi) as [X|X]; [left; exact X|right; rewrite X; ring].
  - intros i Hi. apply (G (2 + i) (body (mp_par m) i)); [lia|lia|]. split; [reflexivity|]. intros h. destruct (relaxation_adds o (mp_par m) K sm z svd5 h HV) as (_ & _ & X & _). apply X, Hi.
Qed.
Print Assumptions run_ends_or_nan.
Print Assumptions run_completes.
Print Assumptions finishing_exists.
Print Assumptions steady_split.
Print Assumptions steady_ader.
Print Assumptions run_code_conserves.

(** ** A configuration that meets the hypotheses: four periodic cells, the split solver, three threads, a relaxation that adds to the momentum, a field that is not uniform *)
Definition ex_opt : options := mkopt true false false 0 true false 2.
Definition ex_ode (_ : matpar) (h : R) : num -> num := option_map (fun v k => if k =? 2 then v k + h else v k)%R.
Definition ex_field : grid := map (fun a _ => INR (S a)) (seq 0 4).
Example run_case ph Phi svd fill tol par5 : let m := mkmatpar par5 false in
  exists nodes bs w inv SIG team, dg_basis nodes bs w /\
    (forall m g k dt, fst (team m g k dt) = 3) /\ configured ex_opt Phi true 0 [4] (fun _ => PERIODIC) [1%R] team /\
    finishing ex_opt (fun k => nth k nodes 0%R) w (end_values bs) (Dv bs nodes) SIG 1 100000 (1 / 100) inv (fun _ _ x => x) ph (fun _ => None) Phi (fun _ _ => true) ex_ode true true 0 [4] (fun _ => PERIODIC) [1%R] team /\
    numeric ex_opt SIG 1 100000 (1 / 100) inv (fun _ _ x => x) (fun _ => None) Phi (fun _ _ => true) ex_ode true true [4] (fun _ => PERIODIC) m nodes bs /\
    slow [1%R] (fun _ _ _ => Some 1%R) 1 /\ gains ph ex_ode true m 2 1 /\ gains ph ex_ode true m 1 0 /\
    exists s, program ex_opt (fun k => nth k nodes 0%R) w (end_values bs) (Dv bs nodes) SIG 1 100000 (1 / 100) inv (fun _ _ x => x) ph (fun _ => None) Phi (fun _ _ => true) ex_ode true true 0 [4] (fun _ => PERIODIC) [1%R] team
      svd (fun _ _ _ => Some 1%R) fill (fun _ => false) false (1 / 2) 1 tol [m] 11 ex_field = Ok (s, false) /\ s_t s = 1%R /\ total (s_u s) 2 = 14%R.
Proof.
  intros m. destruct dg_basis_hyps as [nodes [bs [w [G L]]]]. pose proof G as [Dn [Bn _]]. destruct (weno_hyps nodes Dn ltac:(lia)) as [bs' [inv [SIG HW]]].
  pose proof HW as [_ [Bn' _]]. rewrite Bn in Bn'. injection Bn' as <-.
  assert (C : forall team : matpar -> grid -> list bool -> R -> nat * list nat, (forall m g k dt, fst (team m g k dt) = 3) -> configured ex_opt Phi true 0 [4] (fun _ => PERIODIC) [1%R] team).
  { intros team T. split.
    - split; [reflexivity|]. split; [lia|]. split; cbn; lra.
    - left. exists 4. split; [reflexivity|]. cbn. lia.
    - intros k Hk. unfold PERIODIC. lia.
    - intros. rewrite T. lia.
    - discriminate. }
  destruct (finishing_exists ex_opt (fun k => nth k nodes 0%R) w (end_values bs) (Dv bs nodes) SIG 1 100000 (1 / 100) inv (fun _ _ x => x) ph (fun _ => None) Phi (fun _ _ => true) ex_ode true true 0 [4] (fun _ => PERIODIC) [1%R]
    (fun _ _ _ _ => 3) (fun _ _ _ _ => Nat.lt_0_succ 2) (C (fun _ _ _ _ => (3, [])) (fun _ _ _ _ => eq_refl))) as (team & T & F).
  exists nodes, bs, w, inv, SIG, team. split; [exact G|]. split; [exact T|]. split; [exact (C team T)|]. split; [exact F|].
  assert (NU : numeric ex_opt SIG 1 100000 (1 / 100) inv (fun _ _ x => x) (fun _ => None) Phi (fun _ _ => true) ex_ode true true [4] (fun _ => PERIODIC) m nodes bs).
  { split; [exact L|]. split; [exact HW|]. split; [exact I|]. split; [intros k Hk; unfold PERIODIC; split; lia|]. split; [|reflexivity]. intros h v. eexists. reflexivity. }
  assert (SL : slow [1%R] (fun _ _ _ => Some 1%R) 1).
  { split; [lra|]. intros q m' c H. cbn [speed_sum]. specialize (H 0 ltac:(cbn; lia)). injection H as H. rewrite <- H. lra. }
  assert (G2 : gains ph ex_ode true m 2 1) by (split; [reflexivity|]; intros h v v' [= <-]; cbn; ring).
  split; [exact NU|]. split; [exact SL|]. split; [exact G2|]. split; [split; [reflexivity|]; intros h v v' [= <-]; cbn; ring|].
  destruct (run_completes ex_opt (fun k => nth k nodes 0%R) w (end_values bs) (Dv bs nodes) SIG 1 100000 (1 / 100) inv (fun _ _ x => x) ph (fun _ => None) Phi (fun _ _ => true) ex_ode true true 0 [4] (fun _ => PERIODIC) [1%R] team
    svd (fun _ _ _ => Some 1%R) fill (fun _ => false) false (1 / 2) 1 tol m (C team T) F eq_refl eq_refl ltac:(lra) ltac:(lra) ltac:(reflexivity) ltac:(discriminate) nodes bs 1 ex_field 11 NU SL ltac:(cbn [INR]; lra) eq_refl) as (s & E & Et & _).
  exists s. split; [exact E|]. split; [exact Et|].
  destruct (run_conserves ex_opt (fun k => nth k nodes 0%R) w (end_values bs) (Dv bs nodes) SIG 1 100000 (1 / 100) inv (fun _ _ x => x) ph (fun _ => None) Phi (fun _ _ => true) ex_ode true true 0 [4] (fun _ => PERIODIC) [1%R] team
    svd (fun _ _ _ => Some 1%R) fill (fun _ => false) false (1 / 2) 1 tol m (C team T) eq_refl eq_refl ltac:(reflexivity) ltac:(discriminate) 11 ex_field s false 2 1 eq_refl E ltac:(lia) ltac:(lia) G2) as [X _].
  rewrite X, Et. cbn. lra.
Qed.

(** the material at rest at its reference density, with the identity as its distortion *)
Definition ex_rest (r : R) : vec := fun k => if k =? 0 then r else if (k =? 5) || (k =? 9) || (k =? 13) then 1%R else 0%R.
Example steady_case ph fill par5 : let m := mkmatpar par5 false in let Q := ex_rest (rho0 (prm par5)) in let svd := fun _ : Mat3.mat3 => ((fun _ => 1%R) : Mat3.vec3, Mat3.id3) in
  exists nodes bs w inv SIG team, at_rest ex_opt nodes bs w SIG 1 100000 (1 / 100) inv (fun _ _ x => x) (fun _ => None) [4] (fun k => k) svd (fun _ => false) (1 / 2) 1 (1 / 10) m Q /\
    valid_at ex_opt (fun _ => true) true Q 1 /\ slow [1%R] (fun _ _ _ => Some 1%R) 1 /\
    exists s, program ex_opt (fun k => nth k nodes 0%R) w (end_values bs) (Dv bs nodes) SIG 1 100000 (1 / 100) inv (fun _ _ x => x) ph (fun _ => None) (fun _ _ _ _ => Ok None) (fun _ _ => true) (fun _ _ x => x) true true 0 [4] (fun k => k) [1%R] team
      svd (fun _ _ _ => Some 1%R) fill (fun _ => false) false (1 / 2) 1 (1 / 10) [m] 11 (repeat Q 4) = Ok (s, false) /\ s_u s = repeat Q 4.
Proof.
  intros m Q svd. destruct dg_basis_hyps as [nodes [bs [w [G L]]]]. pose proof G as [Dn [Bn _]]. destruct (weno_hyps nodes Dn ltac:(lia)) as [bs' [inv [SIG HW]]].
  pose proof HW as [_ [Bn' _]]. rewrite Bn in Bn'. injection Bn' as <-.
  assert (C : forall team : matpar -> grid -> list bool -> R -> nat * list nat, (forall m g k dt, fst (team m g k dt) = 3) -> configured ex_opt (fun _ _ _ _ => Ok None) true 0 [4] (fun k => k) [1%R] team).
  { intros team T. split.
    - split; [reflexivity|]. split; [lia|]. split; cbn; lra.
    - left. exists 4. split; [reflexivity|]. cbn. lia.
    - intros k Hk. lia.
    - intros. rewrite T. lia.
    - discriminate. }
  destruct (finishing_exists ex_opt (fun k => nth k nodes 0%R) w (end_values bs) (Dv bs nodes) SIG 1 100000 (1 / 100) inv (fun _ _ x => x) ph (fun _ => None) (fun _ _ _ _ => Ok None) (fun _ _ => true) (fun _ _ x => x) true true 0 [4] (fun k => k) [1%R]
    (fun _ _ _ _ => 3) (fun _ _ _ _ => Nat.lt_0_succ 2) (C (fun _ _ _ _ => (3, [])) (fun _ _ _ _ => eq_refl))) as (team & T & F).
  exists nodes, bs, w, inv, SIG, team.
  assert (AR : at_rest ex_opt nodes bs w SIG 1 100000 (1 / 100) inv (fun _ _ x => x) (fun _ => None) [4] (fun k => k) svd (fun _ => false) (1 / 2) 1 (1 / 10) m Q).
  { split; try reflexivity; try assumption; try lra; try discriminate.
    - intros k Hk. cbn in Hk. split; [lia|]. reflexivity.
    - split; [discriminate|]. split.
      + intros _. unfold Q, m, ex_rest, Mat3.det3, get_A. cbn. ring.
      + unfold contorted_cell, svd. cbn [fst]. replace (1 * 1 * 1)%R with 1%R by ring. destruct (Req_EM_T 1 0); [lra|]. rewrite cbrt_1. destruct (Rlt_dec _ _); [exfalso; lra|reflexivity]. }
  assert (V1 : valid_at ex_opt (fun _ => true) true Q 1) by (intros _ q _; reflexivity).
  assert (SL : slow [1%R] (fun _ _ _ => Some 1%R) 1).
  { split; [lra|]. intros q m' c H. cbn [speed_sum]. specialize (H 0 ltac:(cbn; lia)). injection H as H. rewrite <- H. lra. }
  split; [exact AR|]. split; [exact V1|]. split; [exact SL|].
  destruct (steady_split ex_opt nodes bs w SIG 1 100000 (1 / 100) inv (fun _ _ x => x) ph (fun _ => None) (fun _ _ => true) (fun _ _ x => x) true 0 [4] (fun k => k) [1%R] team svd (fun _ _ _ => Some 1%R) fill (fun _ => false)
    (1 / 2) 1 (1 / 10) m Q (fun _ _ _ _ => Ok None) 1 11 AR (C team T) F ltac:(reflexivity) V1 SL ltac:(cbn [INR]; lra)) as (s & E & [X _] & _).
  exists s. split; [exact E|exact X].
Qed.
