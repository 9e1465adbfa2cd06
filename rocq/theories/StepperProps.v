(** C14, C15, C16: the parallel steppers. *)
From Coq Require Import Reals List Lia ZArith.
From Verif Require Import Base Options WenoModel FvModel FvProof GridModel StepperModel ThreadProof StepperProof StepperProof2.
Import List ListNotations.
Open Scope nat_scope.

(** ** C14: the slabs are in order, in range, and every row of cells belongs to exactly one of them *)
Theorem slabs_tile nx n : 0 < n ->
  slab_start nx n 0 = 0 /\ slab_start nx n n = nx /\
  (forall t, t < n -> slab_start nx n t <= slab_start nx n (t + 1) <= nx) /\
  (forall r, r < nx -> exists! t, t < n /\ slab_start nx n t <= r < slab_start nx n (t + 1)).
Proof.
  intros Hn. split; [apply slab0|]. split; [apply slab_n, Hn|]. split.
  - intros t Ht. split; [apply slab_le; lia|apply slab_bound; lia].
  - intros r Hr. destruct (slab_find nx n r Hn Hr) as [t [Ht R]]. exists t. split; [auto|]. intros s [_ S]. exact (slab_unique nx n r t s R S).
Qed.
Print Assumptions slabs_tile.
(** 7 rows on 3 threads *)
Example slabs_7_3 : map (slab_start 7 3) [0; 1; 2; 3] = [0; 2; 4; 7]. Proof. reflexivity. Qed.
(** more threads than rows: some slabs are empty *)
Example slabs_2_4 : map (slab_start 2 4) [0; 1; 2; 3; 4] = [0; 0; 1; 1; 2]. Proof. reflexivity. Qed.

(** the work is balanced to within one row *)
Theorem slabs_balanced nx n t : 0 < n -> nx / n <= slab_start nx n (t + 1) - slab_start nx n t <= nx / n + 1.
Proof.
  intros Hn. unfold slab_start. pose proof (Nat.div_mod nx n ltac:(lia)) as E. pose proof (Nat.mod_upper_bound nx n ltac:(lia)) as M.
  pose proof (Nat.div_mod (t * nx) n ltac:(lia)) as E0. pose proof (Nat.mod_upper_bound (t * nx) n ltac:(lia)) as M0.
  pose proof (Nat.div_mod ((t + 1) * nx) n ltac:(lia)) as E1. pose proof (Nat.mod_upper_bound ((t + 1) * nx) n ltac:(lia)) as M1.
  set (q := nx / n) in *. set (a := t * nx / n) in *. set (b := (t + 1) * nx / n) in *. rewrite Nat.mul_add_distr_r in E1.
  assert (A : n * b + (t * nx + 1 * nx) mod n = n * a + (t * nx) mod n + (n * q + nx mod n)) by (rewrite Nat.mul_add_distr_r in M1; lia).
  rewrite Nat.mul_add_distr_r in M1. set (r := (t * nx + 1 * nx) mod n) in *. set (r0 := (t * nx) mod n) in *. set (r1 := nx mod n) in *.
  assert (B : a + q <= b) by (destruct (Nat.le_gt_cases (a + q) b) as [|C]; [assumption|]; pose proof (Nat.mul_le_mono_l (b + 1) (a + q) n ltac:(lia)); lia).
  assert (C : b <= a + q + 1) by (destruct (Nat.le_gt_cases b (a + q + 1)) as [|C]; [assumption|]; pose proof (Nat.mul_le_mono_l (a + q + 2) b n ltac:(lia)); lia).
  lia.
Qed.

Section S.
Variables (N : nat) (SIG : nat -> nat -> R) (LAMS LAMC EPS : R) (inv : stencil -> (nat -> R) -> nat -> R).
Variable prim : option ((num -> num) * (num -> num)).
Variable nc : bool.
Variable blk : Type.
Variable center : nat -> bool -> nat -> blk -> res (list (num -> num)).
Variable face : nat -> bool -> nat -> nat -> blk -> blk -> res ((num -> num) * (num -> num)).
Variable Phi : nat -> list num -> res (option (nat -> blk)).
Variable view : list num -> blk.
Variable mid : nat -> list num -> res blk.
Variable ode : num -> num.
Notation ader := (ader_stepper N SIG LAMS LAMC EPS inv prim nc blk center face Phi).
Notation ader_thread := (ader_thread N SIG LAMS LAMC EPS inv prim nc blk center face Phi).
Notation split := (split_stepper N SIG LAMS LAMC EPS inv prim nc blk center face view mid ode).
Notation split_thread := (split_thread N SIG LAMS LAMC EPS inv prim nc blk center face view mid ode).

(** one execution of the parallel stepper with n threads: [sched] says which thread moves next *)
Definition ader_para (n : nat) (sched : list nat) (u ub : buf num) (mask : buf bool) (nX : list nat) : res (config num) :=
  para (ader_thread (blen u) ub mask nX n) n sched u.
Definition split_para (HALF : bool) (n : nat) (sched : list nat) (u ub : buf num) (mask : buf bool) (nX : list nat) : res (config num) :=
  para (split_thread HALF (blen u) ub mask nX n) n sched u.

Definition initialised {A} (b : buf A) : Prop := exists x, forall a, a < blen b -> bdat b a = Some (x a).
Definition same {A} (b b' : buf A) : Prop := blen b = blen b' /\ forall a, a < blen b -> bdat b a = bdat b' a.

(** ** C15 *)
Section Any.
Variables (ser : nat -> buf num -> buf bool -> list nat -> res (list (update num))) (ub : buf num) (mask : buf bool) (nX : list nat).
Notation exec n sched u := (para (thread_updates N ser (blen u) ub mask nX n) n sched u).

Lemma any_schedule n u : 0 < n -> initialised u -> forall sched0 c0, exec n sched0 u = Ok c0 ->
  exists u', forall sched, exists c, exec n sched u = Ok c /\ (finished c -> same u' (snd c)) /\ exists more c', exec n (sched ++ more) u = Ok c' /\ finished c'.
Proof.
  intros Hn [x Hx] sched0 c0 E0. unfold para in *. apply bind_ok in E0. destruct E0 as [ops [Eo _]]. rewrite Eo. cbn [bind].
  destruct (threads_disjoint N ser (blen u) ub mask nX n ops Eo) as [D B]. specialize (B Hn).
  exists (mkbuf (blen u) (fun a => Some (run (at_cell a (concat ops)) (x a)))). intros sched.
  destruct (threads_ok num ops u x D B Hx sched) as [c [Ec [L F]]]. exists c. split; [exact Ec|]. split.
  - intros Hf. split; cbn [blen bdat]; [symmetry; exact L|]. intros a Ha. symmetry. apply F; assumption.
  - destruct (threads_finish num ops u x D B Hx sched c Ec) as [more [c' [E' F']]]. eauto.
Qed.

(** two threads are never about to access the same cell *)
Definition next_cell (s : tstate num) : option nat := match fst s with [] => None | (a, _) :: _ => Some a end.
Lemma any_race_free n sched u c : initialised u -> 0 < n -> exec n sched u = Ok c ->
  forall i j si sj a, nth_error (fst c) i = Some si -> nth_error (fst c) j = Some sj -> next_cell si = Some a -> next_cell sj = Some a -> i = j.
Proof.
  intros [x Hx] Hn E i j si sj a Hi Hj Ai Aj. unfold para in E. apply bind_ok in E. destruct E as [ops [Eo E]].
  destruct (threads_disjoint N ser (blen u) ub mask nX n ops Eo) as [D B]. specialize (B Hn).
  destruct (inv_run num ops (blen u) x D B sched (start_config ops u)) as [c1 [E1 I]]; [apply inv_start; auto|]. rewrite E in E1. injection E1 as <-.
  destruct I as [L [_ [dn [H1 _]]]].
  assert (K : forall k s, nth_error (fst c) k = Some s -> next_cell s = Some a -> exists l p, nth_error ops k = Some l /\ In p l /\ fst p = a).
  { intros k s Hk Ak. destruct (nth_error ops k) as [l|] eqn:El.
    - destruct (H1 k l s El Hk) as [Hl _]. destruct s as [[|[b e] r] o]; cbn in Ak; [discriminate|]. injection Ak as ->.
      exists l, (a, e). split; [reflexivity|]. split; [rewrite Hl; apply in_or_app; right; now left|reflexivity].
    - apply nth_error_None in El. assert (k < length (fst c)) by (apply nth_error_Some; congruence). lia. }
  destruct (K i si Hi Ai) as [li [p [Eli [Ip Ep]]]]. destruct (K j sj Hj Aj) as [lj [q [Elj [Iq Eq]]]]. apply (D i j li lj p q Eli Elj Ip Iq). congruence.
Qed.
End Any.

(** Whatever the interleaving: if one schedule gets going then no schedule fails, every schedule can be run to the end,
    and all the executions that reach the end leave the same array. *)
Theorem ader_para_schedule_independent n u ub mask nX : 0 < n -> initialised u -> forall sched0 c0, ader_para n sched0 u ub mask nX = Ok c0 ->
  exists u', forall sched, exists c, ader_para n sched u ub mask nX = Ok c /\ (finished c -> same u' (snd c)) /\
    exists more c', ader_para n (sched ++ more) u ub mask nX = Ok c' /\ finished c'.
Proof. intros Hn Hu s c E. exact (any_schedule _ ub mask nX n u Hn Hu s c E). Qed.
Theorem split_para_schedule_independent HALF n u ub mask nX : 0 < n -> initialised u -> forall sched0 c0, split_para HALF n sched0 u ub mask nX = Ok c0 ->
  exists u', forall sched, exists c, split_para HALF n sched u ub mask nX = Ok c /\ (finished c -> same u' (snd c)) /\
    exists more c', split_para HALF n (sched ++ more) u ub mask nX = Ok c' /\ finished c'.
Proof. intros Hn Hu s c E. exact (any_schedule _ ub mask nX n u Hn Hu s c E). Qed.

(** no data race: in no reachable configuration are two threads about to access the same cell of u *)
Theorem ader_para_race_free n sched u ub mask nX c : 0 < n -> initialised u -> ader_para n sched u ub mask nX = Ok c ->
  forall i j si sj a, nth_error (fst c) i = Some si -> nth_error (fst c) j = Some sj -> next_cell si = Some a -> next_cell sj = Some a -> i = j.
Proof. intros Hn Hu E. exact (any_race_free _ ub mask nX n sched u c Hu Hn E). Qed.
Theorem split_para_race_free HALF n sched u ub mask nX c : 0 < n -> initialised u -> split_para HALF n sched u ub mask nX = Ok c ->
  forall i j si sj a, nth_error (fst c) i = Some si -> nth_error (fst c) j = Some sj -> next_cell si = Some a -> next_cell sj = Some a -> i = j.
Proof. intros Hn Hu E. exact (any_race_free _ ub mask nX n sched u c Hu Hn E). Qed.

(** ** C16 *)
(** a call of the stepper: arrays of the right sizes, initialised *)
Definition well_formed (u ub : buf num) (mask : buf bool) (nX : list nat) : Prop :=
  (exists nx rest, nX = nx :: rest /\ 0 < nx /\ length rest <= 1) /\
  blen u = extended_dimensions nX 0 /\ blen ub = extended_dimensions nX N /\ blen mask = extended_dimensions nX 1 /\
  initialised u /\ initialised ub /\ initialised mask.

Lemma any_threads ser u ub mask nx rest n l u1 : 1 <= N -> dims rest -> local N ser rest -> 0 < nx -> 0 < n ->
  blen u = ext (nx :: rest) 0 -> blen ub = ext (nx :: rest) N -> blen mask = ext (nx :: rest) 1 -> initialised u -> initialised ub -> initialised mask ->
  ser (blen u) ub mask (nx :: rest) = Ok l -> fold_res do_update l u = Ok u1 ->
  forall sched, exists c, para (thread_updates N ser (blen u) ub mask (nx :: rest) n) n sched u = Ok c /\ (finished c -> same u1 (snd c)).
Proof.
  intros H1 Hd HL Hx Hn Lu Lb Lm [x Ix] [xb Ib] [xm Im] E F sched.
  destruct (threads_serial N H1 ser (blen u) ub mask nx rest n xb l) as [ops [Eo [B A]]]; auto.
  { intros a Ha. rewrite Im by exact Ha. discriminate. }
  destruct (threads_disjoint N ser (blen u) ub mask (nx :: rest) n ops Eo) as [D R]. specialize (R Hn).
  destruct (threads_ok num ops u x D R Ix sched) as [c [Ec [Lc Fc]]]. exists c. unfold para. rewrite Eo. cbn [bind]. split; [exact Ec|].
  intros Hf. destruct (updates_run l u x B Ix) as [u2 [E2 [L2 V2]]]. rewrite F in E2. injection E2 as <-. split; [congruence|].
  intros a Ha. rewrite L2 in Ha. rewrite V2, Fc by assumption. now rewrite A.
Qed.

Lemma dims_of rest : length rest <= 1 -> dims rest.
Proof. destruct rest as [|ny [|z r]]; cbn; intros H; [now left|right; eauto|lia]. Qed.

(** The parallel step of any number of threads, under any schedule, ends with the array of the serial step: in one
    dimension always, in two when NO_CORNERS is off. (With NO_CORNERS on, as shipped, it is false: below.) *)
Theorem ader_para_is_serial_partial u ub mask nX n u1 : 1 <= N -> well_formed u ub mask nX -> (length nX = 2 -> nc = false) -> 0 < n ->
  ader u ub mask nX = Ok u1 ->
  forall sched, exists c, ader_para n sched u ub mask nX = Ok c /\ (finished c -> same u1 (snd c)).
Proof.
  intros H1 [[nx [rest [-> [Hx Hr]]]] [Lu [Lb [Lm [Iu [Ib Im]]]]]] Hnc Hn E. unfold ader_stepper in E. apply bind_ok in E. destruct E as [l [El E]].
  apply (any_threads (fun _ => ader_updates N SIG LAMS LAMC EPS inv prim nc blk center face Phi) u ub mask nx rest n l u1); auto using dims_of.
  apply ader_local; auto using dims_of. intros Ne. apply Hnc. destruct rest as [|ny [|z r]]; cbn in *; [congruence|reflexivity|lia].
Qed.
Theorem split_para_is_serial_partial HALF u ub mask nX n u1 : 1 <= N -> well_formed u ub mask nX -> (length nX = 2 -> nc = false) -> 0 < n ->
  split HALF u ub mask nX = Ok u1 ->
  forall sched, exists c, split_para HALF n sched u ub mask nX = Ok c /\ (finished c -> same u1 (snd c)).
Proof.
  intros H1 [[nx [rest [-> [Hx Hr]]]] [Lu [Lb [Lm [Iu [Ib Im]]]]]] Hnc Hn E. unfold split_stepper in E. apply bind_ok in E. destruct E as [l [El E]].
  apply (any_threads (split_updates N SIG LAMS LAMC EPS inv prim nc blk center face view mid ode HALF) u ub mask nx rest n l u1); auto using dims_of.
  apply split_local; auto using dims_of. intros Ne. apply Hnc. destruct rest as [|ny [|z r]]; cbn in *; [congruence|reflexivity|lia].
Qed.
End S.
Print Assumptions ader_para_schedule_independent.
Print Assumptions split_para_schedule_independent.
Print Assumptions ader_para_race_free.
Print Assumptions split_para_race_free.
Print Assumptions ader_para_is_serial_partial.
Print Assumptions split_para_is_serial_partial.

(** ** NO_CORNERS on: the result depends on the number of threads. A predictor and finite volume update that do nothing
    except propagate NaN, a uniform field on a 2 x 2 grid, two threads: the serial step leaves the field alone and the
    parallel one turns it into NaN. *)
Section Refuted.
Definition Phi0 (_ : nat) (rows : list num) : res (option (nat -> bool)) := Ok (Some (fun _ => forallb fin rows)).
Definition center0 (_ : nat) (_ : bool) (_ : nat) (b : bool) : res (list (num -> num)) := Ok [fun x : num => if b then x else None].
Definition face0 (_ : nat) (_ : bool) (_ _ : nat) (a b : bool) : res ((num -> num) * (num -> num)) :=
  Ok (fun x : num => if (a && b)%bool then x else None, fun x : num => if (a && b)%bool then x else None).
Definition one : num := Some (fun _ => 1%R).
Definition u0 : buf num := mkbuf 4 (fun _ => Some one).
Definition ub0 : buf num := mkbuf 36 (fun _ => Some one).
Definition mask0 : buf bool := mkbuf 16 (fun _ => Some true).
Definition sched0 : list nat := repeat 0 100 ++ repeat 1 100.
Variables (SIG : nat -> nat -> R) (LAMS LAMC EPS : R) (inv : stencil -> (nat -> R) -> nat -> R).

Definition all_finite (b : buf num) : bool := forallb (fun a => match bdat b a with Some (Some _) => true | _ => false end) (seq 0 (blen b)).
Definition all_nan (b : buf num) : bool := forallb (fun a => match bdat b a with Some None => true | _ => false end) (seq 0 (blen b)).

Definition check {A} (f : A -> bool) (r : res A) : bool := match r with Ok a => f a | _ => false end.
Lemma ok_if {A} (f : A -> bool) (r : res A) : check f r = true -> exists a, r = Ok a /\ f a = true.
Proof. destruct r; try discriminate. cbn. eauto. Qed.
Definition ended (c : config num) : bool := forallb (fun s => match fst s with [] => true | _ => false end) (fst c).
Lemma finite_at b : all_finite b = true -> forall a, a < blen b -> exists v, bdat b a = Some (Some v).
Proof. intros H a Ha. unfold all_finite in H. rewrite forallb_forall in H. specialize (H a ltac:(apply in_seq; lia)). destruct (bdat b a) as [[v|]|]; try discriminate. eauto. Qed.
Lemma nan_at b : all_nan b = true -> forall a, a < blen b -> bdat b a = Some None.
Proof. intros H a Ha. unfold all_nan in H. rewrite forallb_forall in H. specialize (H a ltac:(apply in_seq; lia)). destruct (bdat b a) as [[v|]|]; try discriminate. reflexivity. Qed.
Lemma ended_finished c : ended c = true -> finished c.
Proof. intros H s Is. unfold ended in H. rewrite forallb_forall in H. specialize (H s Is). destruct (fst s); [reflexivity|discriminate]. Qed.
Lemma corner_serial : check all_finite (ader_stepper 2 SIG LAMS LAMC EPS inv None true bool center0 face0 Phi0 u0 ub0 mask0 [2; 2]) = true.
Proof. vm_compute. reflexivity. Qed.
Lemma corner_para : check (fun c => ended c && all_nan (snd c))%bool (ader_para 2 SIG LAMS LAMC EPS inv None true bool center0 face0 Phi0 2 sched0 u0 ub0 mask0 [2; 2]) = true.
Proof. vm_compute. reflexivity. Qed.
Example corner_wf : well_formed 2 u0 ub0 mask0 [2; 2].
Proof. split; [exists 2, [2]; cbn; auto with arith|]. repeat split; try reflexivity; eexists; intros; reflexivity. Qed.

(** the shipped NO_CORNERS: same call, serial finite everywhere, two threads NaN everywhere *)
Theorem ader_para_is_serial_refuted : exists u1 c,
  ader_stepper 2 SIG LAMS LAMC EPS inv None (NO_CORNERS shipped) bool center0 face0 Phi0 u0 ub0 mask0 [2; 2] = Ok u1 /\
  ader_para 2 SIG LAMS LAMC EPS inv None (NO_CORNERS shipped) bool center0 face0 Phi0 2 sched0 u0 ub0 mask0 [2; 2] = Ok c /\ finished c /\
  (forall a, a < 4 -> exists v, bdat u1 a = Some (Some v)) /\ (forall a, a < 4 -> bdat (snd c) a = Some None) /\ ~ same u1 (snd c).
Proof.
  change (NO_CORNERS shipped) with true. destruct (ok_if _ _ corner_serial) as [u1 [Es Hs]]. destruct (ok_if _ _ corner_para) as [c [Ep Hp]].
  apply Bool.andb_true_iff in Hp. destruct Hp as [Hf Hp].
  assert (L1 : blen u1 = 4).
  { unfold ader_stepper in Es. apply bind_ok in Es. destruct Es as [l [_ Es]]. clear -Es. revert Es. change 4 with (blen u0). generalize u0.
    induction l as [|p l IH]; intros b E; [cbn in E; now injection E as <-|]. cbn [fold_res] in E. apply bind_ok in E. destruct E as [b1 [E1 E]]. rewrite (IH b1 E).
    unfold do_update in E1. apply bind_ok in E1. destruct E1 as [x [_ E1]]. apply wr_inv in E1. destruct E1 as [_ ->]. reflexivity. }
  assert (L2 : blen (snd c) = 4).
  { unfold ader_para, para in Ep. apply bind_ok in Ep. destruct Ep as [ops [Eo Ep]].
    destruct (threads_disjoint _ _ _ _ _ _ _ _ Eo) as [D B].
    destruct (threads_ok num ops u0 (fun _ => one) D (B ltac:(lia)) ltac:(reflexivity) sched0) as [c' [E' [L' _]]]. rewrite Ep in E'. injection E' as <-. exact L'. }
  exists u1, c. split; [exact Es|]. split; [exact Ep|].
  assert (A : forall a, a < 4 -> exists v, bdat u1 a = Some (Some v)) by (rewrite <- L1; exact (finite_at u1 Hs)).
  assert (B : forall a, a < 4 -> bdat (snd c) a = Some None) by (rewrite <- L2; exact (nan_at (snd c) Hp)).
  clear Es Ep.
  split; [exact (ended_finished c Hf)|]. split; [exact A|]. split; [exact B|].
  intros [_ S]. destruct (A 0 ltac:(lia)) as [v Ev]. specialize (S 0 ltac:(lia)). rewrite Ev, B in S by lia. discriminate.
Qed.

(** the hypotheses of the positive theorem on the same field: NO_CORNERS off, and one dimension *)
Definition succeeds {A} (r : res A) : bool := match r with Ok _ => true | _ => false end.
Example serial_runs_2d : succeeds (ader_stepper 2 SIG LAMS LAMC EPS inv None false bool center0 face0 Phi0 u0 ub0 mask0 [2; 2]) = true.
Proof. vm_compute. reflexivity. Qed.
Example serial_runs_1d : succeeds (ader_stepper 2 SIG LAMS LAMC EPS inv None true bool center0 face0 Phi0 u0 (mkbuf 8 (fun _ => Some one)) (mkbuf 6 (fun _ => Some true)) [4]) = true.
Proof. vm_compute. reflexivity. Qed.
Example split_runs_1d : succeeds (split_stepper 2 SIG LAMS LAMC EPS inv None true bool center0 face0 (forallb fin) (fun _ rows => Ok (forallb fin rows)) (fun x => x)
   true u0 (mkbuf 8 (fun _ => Some one)) (mkbuf 6 (fun _ => Some true)) [4]) = true.
Proof. vm_compute. reflexivity. Qed.
End Refuted.
Print Assumptions ader_para_is_serial_refuted.
