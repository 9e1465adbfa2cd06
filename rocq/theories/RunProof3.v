(** A schedule that finishes exists for every number of threads; the step on what the serial step leaves; termination; uniform states. *)
From Coq Require Import Reals Lia Lra ZArith Cantor ConstructiveEpsilon.
From Verif Require Import Base Options Sum EqModel EqSpec FvModel FvBody FvProps WenoModel DgModel GridModel StepperModel StepperProps AderModel AderProof3 AderProps HomogModel SplitProps
  UtilsModel IterModel IterSpec IterProof2 IterProps PhysModel SafeProof RunModel RunProof RunProof2 RunProps.
Import List ListNotations.
Open Scope nat_scope.

(** ** schedules can be enumerated *)
Fixpoint enc (l : list nat) : nat := match l with [] => 0 | a :: l => S (to_nat (a, enc l)) end.
Fixpoint dec (fuel n : nat) : list nat :=
  match fuel, n with S fuel, S k => let '(a, b) := of_nat k in a :: dec fuel b | _, _ => [] end.
Lemma dec_enc : forall l f, enc l <= f -> dec f (enc l) = l.
Proof.
  induction l as [|a l IH]; intros f H; cbn [enc] in *; [destruct f; reflexivity|]. destruct f as [|f]; [lia|]. cbn [dec]. rewrite cancel_of_to. f_equal. apply IH.
  pose proof (to_nat_non_decreasing a (enc l)). lia.
Qed.
Lemma find_schedule (P : list nat -> bool) : (exists l, P l = true) -> {l | P l = true}.
Proof.
  intros H. destruct (constructive_indefinite_ground_description_nat (fun n => P (dec n n) = true)) as [n Hn].
  - intros n. destruct (P (dec n n)); [left; reflexivity|right; discriminate].
  - destruct H as [l Hl]. exists (enc l). rewrite dec_enc by lia. exact Hl.
  - exists (dec n n). exact Hn.
Defined.

Section Run.
Variable o : options.
Variables NODES WGHTS : nat -> R.
Variables ENDVALS DERVALS : nat -> nat -> R.
Variables (SIG : nat -> nat -> R) (LAMS LAMC EPS : R) (inv : stencil -> (nat -> R) -> nat -> R).
Variable wallf : nat -> nat -> num -> num.
Variable ph : matpar -> phys.
Variable prim : matpar -> option ((num -> num) * (num -> num)).
Variable Phi : matpar -> R -> nat -> list num -> res (option (nat -> option nodal)).
Variable valid : matpar -> nodal -> bool.
Variable ode : matpar -> R -> num -> num.
Variables (SPLIT HALF_STEP : bool) (FLUX : nat) (nX : list nat) (bt : nat -> nat) (dX : list R).
Notation advance_with := (run_advance o NODES WGHTS ENDVALS DERVALS SIG LAMS LAMC EPS inv wallf ph prim Phi valid ode SPLIT HALF_STEP FLUX nX bt dX).
Notation conf := (configured o Phi SPLIT FLUX nX bt dX).
Notation cells := (fold_right Nat.mul 1 nX).

Definition ends {A} (r : res A) : bool := match r with NoFuel => false | _ => true end.
(** the threads do finish *)
Definition finishing (team : matpar -> grid -> list bool -> R -> nat * list nat) : Prop :=
  forall m g k dt, length g = cells -> length k = cells -> ends (advance_with team m g k dt) = true.

Lemma finished_all_done {T} (c : config T) : finished c -> all_done c = true.
Proof using.
  unfold finished, all_done. intros H. apply forallb_forall. intros s Hs. destruct (fst s) eqn:E; [reflexivity|]. exfalso.
  specialize (H s Hs). rewrite E in H. discriminate.
Qed.
Lemma take_ends (b : buf num) : forall n a, ends (take_cells b n a) = true.
Proof using.
  induction n as [|n IH]; intros a; [reflexivity|]. cbn [take_cells]. unfold rd. destruct (Nat.ltb a (blen b)); [|reflexivity]. destruct (bdat b a) as [[q|]|]; cbn [bind]; try reflexivity.
  specialize (IH (S a)). destruct (take_cells b n (S a)); cbn [bind]; try reflexivity. discriminate.
Qed.
Theorem finishing_exists (threads : matpar -> grid -> list bool -> R -> nat) : (forall m g k dt, 0 < threads m g k dt) ->
  conf (fun m g k dt => (threads m g k dt, [])) -> exists team, (forall m g k dt, fst (team m g k dt) = threads m g k dt) /\ finishing team.
Proof using.
  intros Hn [HR HD HB HT HP].
  assert (X : forall m g k dt, length g = cells -> length k = cells -> exists sched, ends (advance_with (fun _ _ _ _ => (threads m g k dt, sched)) m g k dt) = true).
  { intros m g k dt Lg Lk. rewrite <- (cells_ext o nX HD) in Lg, Lk. unfold run_advance.
    destruct (boundaries_return o wallf (grid_buf g) nX bt HD HB Lg (grid_buf_init g)) as [ub [-> [Lb Ib]]].
    destruct (mask_return o (mask_buf k) nX HD Lk (mask_buf_init k)) as [mb [-> [Lm Im]]]. cbn [bind].
    destruct (para_returns o NODES WGHTS ENDVALS DERVALS SIG LAMS LAMC EPS inv ph prim Phi valid ode SPLIT HALF_STEP FLUX nX dX HR HD HP m dt (grid_buf g) ub mb (threads m g k dt)
      Lg (grid_buf_init g) Lb Ib Lm Im (Hn m g k dt)) as [u' [_ [_ H]]].
    destruct (H []) as [c [_ [_ [more [c' [E F]]]]]]. exists more. cbn [app] in E. rewrite E. cbn [bind]. rewrite (finished_all_done c' F). apply take_ends. }
  exists (fun m g k dt => (threads m g k dt, match Nat.eq_dec (length g) cells, Nat.eq_dec (length k) cells with
     | left Lg, left Lk => proj1_sig (find_schedule _ (X m g k dt Lg Lk)) | _, _ => [] end)).
  split; [reflexivity|]. intros m g k dt Lg Lk.
  unfold run_advance. destruct (Nat.eq_dec (length g) cells) as [Lg'|]; [|contradiction]. destruct (Nat.eq_dec (length k) cells) as [Lk'|]; [|contradiction].
  exact (proj2_sig (find_schedule _ (X m g k dt Lg' Lk'))).
Qed.

Section Team.
Variable team : matpar -> grid -> list bool -> R -> nat * list nat.
Notation advance := (advance_with team).
Hypothesis HC : conf team.
(** what a step that finishes computes *)
Lemma advance_is m g k dt : length g = cells -> length k = cells -> (length nX = 2 -> NO_CORNERS o = false) -> ends (advance m g k dt) = true ->
  exists ub mb u1, boundaries num (N o) wallf (grid_buf g) (balloc (extended_dimensions nX (N o))) nX bt = Ok ub /\ extend_mask (mask_buf k) (balloc (extended_dimensions nX 1)) nX = Ok mb /\
    serial_step o NODES WGHTS ENDVALS DERVALS SIG LAMS LAMC EPS inv ph prim Phi valid ode SPLIT HALF_STEP FLUX nX dX m dt (grid_buf g) ub mb = Ok u1 /\ blen u1 = length g /\ advance m g k dt = buf_grid u1.
Proof using HC.
  destruct HC as [HR HD HB HT HP]. intros Lg Lk Hnc E. rewrite <- (cells_ext o nX HD) in Lg, Lk. unfold run_advance in *.
  destruct (boundaries_return o wallf (grid_buf g) nX bt HD HB Lg (grid_buf_init g)) as [ub [Eb [Lb Ib]]]. rewrite Eb in *. cbn [bind] in *.
  destruct (mask_return o (mask_buf k) nX HD Lk (mask_buf_init k)) as [mb [Em [Lm Im]]]. rewrite Em in *. cbn [bind] in *.
  destruct (serial_returns o NODES WGHTS ENDVALS DERVALS SIG LAMS LAMC EPS inv ph prim Phi valid ode SPLIT HALF_STEP FLUX nX dX HR HD HP m dt (grid_buf g) ub mb Lg (grid_buf_init g) Lb Ib Lm Im) as [u1 [E1 [L1 I1]]].
  exists ub, mb, u1. split; [reflexivity|]. split; [reflexivity|]. split; [exact E1|]. split; [exact L1|].
  pose proof (HT m g k dt) as Hn. destruct (team m g k dt) as [n sched]. cbn [fst] in Hn.
  assert (WF : well_formed (N o) (grid_buf g) ub mb nX).
  { destruct (dims_nX o nX HD) as (nx & rest & En & Hd & Hx & Hr & _). split; [exists nx, rest; auto|]. repeat split; try assumption; apply grid_buf_init. }
  assert (N1 : 1 <= N o) by (destruct (dims_nX o nX HD) as (_ & _ & _ & _ & _ & _ & N1); exact N1).
  assert (S : exists c, run_para o NODES WGHTS ENDVALS DERVALS SIG LAMS LAMC EPS inv ph prim Phi valid ode SPLIT HALF_STEP FLUX nX dX m dt n sched (grid_buf g) ub mb = Ok c /\ (finished c -> same u1 (snd c))).
  { unfold serial_step in E1. unfold run_para. destruct SPLIT.
    - apply split_para_is_serial_partial; assumption.
    - apply ader_para_is_serial_partial; assumption. }
  destruct S as [c [Ec F]]. rewrite Ec in *. cbn [bind] in *. destruct (all_done c) eqn:Ed; [|discriminate]. apply all_done_finished in Ed. symmetry. apply buf_grid_same, F, Ed.
Qed.
End Team.
End Run.
