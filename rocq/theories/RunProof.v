(** A whole run: one turn of the loop, and what is kept by every turn. *)
From Coq Require Import Reals Lia Lra ZArith.
From Verif Require Import Base Options Sum EqModel EqProof FvModel FvBody FvProof FvProof2 FvProps WenoModel DgModel GridModel GridSpec GridProps StepperModel StepperProof StepperProof2
  ThreadProof StepperProps AderModel AderProps HomogModel UtilsModel IterModel RunModel SafeProof DgProof DgProof3.
Import List ListNotations.
Open Scope nat_scope.

(** ** the increments always return *)
Section Returns.
Variable o : options.
Variable ph : phys.
Variables NODES WGHTS : nat -> R.
Variables ENDVALS DERVALS : nat -> nat -> R.
Variables (FLUX : nat) (dt : R) (dX : nat -> R).
Hypothesis HR : runs o FLUX dX.
Lemma center_returns TIME : returns_center (option nodal) (fun ndim sources => center_num o ph WGHTS DERVALS dt dX ndim sources TIME).
Proof.
  destruct HR as [HV [HF [D0 D1]]]. intros ndim s t [q|] Hn; cbn [center_num]; [|eauto].
  destruct Hn as [-> | ->].
  - destruct (center1_ok o ph HV WGHTS DERVALS s TIME FLUX dt HF (dX 0) t q) as [l [-> _]]. cbn [bind]. eauto.
  - destruct (center2_ok o ph HV WGHTS DERVALS s TIME FLUX dt HF (dX 0) (dX 1) t q) as [l [-> _]]. cbn [bind]. eauto.
Qed.
Lemma face_returns TIME : returns_face (option nodal) (fun ndim _ => face_num o ph NODES WGHTS ENDVALS FLUX dt dX ndim TIME).
Proof.
  destruct HR as [HV [HF [D0 D1]]]. intros ndim s d t [l|] [r|] Hn Hd; cbn [face_num]; eauto.
  destruct Hn as [-> | ->].
  - destruct (face1_ok o ph HV NODES WGHTS ENDVALS TIME FLUX dt HF (dX 0) d t l r D0) as [el [er [-> _]]]. cbn [bind]. eauto.
  - destruct (face2_ok o ph HV NODES WGHTS ENDVALS TIME FLUX dt HF (dX 0) (dX 1) d t l r Hd) as [el [er [-> _]]]; [destruct d; assumption|]. cbn [bind]. eauto.
Qed.
Lemma mid_returns valid ndim : ndim = 1 \/ ndim = 2 -> returns_mid (N o) (option nodal) (mid o ph DERVALS dt dX valid) ndim.
Proof.
  intros Hn l _. destruct HR as [HV _]. unfold mid. destruct (view l) as [w|]; [|eauto]. destruct (valid w); [|eauto].
  destruct Hn as [-> | ->]; [unfold mid1|unfold mid2].
  - match goal with |- context [rows ?m ?f] => destruct (rows_ok m f (fun a => match f a with Ok r => r | _ => fun _ => 0%R end)) as [r [Er _]] end.
    + intros a Ha. cbv zeta. rewrite (Bdot_ok o HV) by lia. reflexivity.
    + rewrite Er. cbn [bind]. eauto.
  - match goal with |- context [rows ?m ?f] => destruct (rows_ok m f (fun a => match f a with Ok r => r | _ => fun _ => 0%R end)) as [r [Er _]] end.
    + intros a Ha. cbv zeta. rewrite !(Bdot_ok o HV) by lia. reflexivity.
    + rewrite Er. cbn [bind]. eauto.
Qed.
End Returns.

(** ** arrays and lists of cells *)
Lemma grid_buf_holds g : forall d, holds (length g) (grid_buf g) (fun a => nth a g d).
Proof.
  intros d. split; [reflexivity|]. intros c Hc. cbn [grid_buf bdat]. rewrite (nth_error_nth' g d Hc). reflexivity.
Qed.
Lemma grid_buf_init g : initialised (grid_buf g).
Proof. exists (fun a => Some (nth a g (fun _ => 0%R))). intros a Ha. apply (proj2 (grid_buf_holds g (fun _ => 0%R))). exact Ha. Qed.
Lemma mask_buf_init k : initialised (mask_buf k).
Proof. exists (fun a => nth a k false). intros a Ha. cbn [mask_buf bdat blen] in *. apply nth_error_nth', Ha. Qed.
Lemma mask_buf_true n : all_true n (mask_buf (repeat true n)).
Proof.
  split; [apply repeat_length|]. intros a Ha. cbn [mask_buf bdat]. rewrite (nth_error_nth' _ true) by (rewrite repeat_length; exact Ha). f_equal. apply nth_repeat.
Qed.
Lemma take_cells_ok b : forall n a g, take_cells b n a = Ok g -> length g = n /\ forall i d, i < n -> bdat b (a + i) = Some (Some (nth i g d)).
Proof.
  induction n as [|n IH]; intros a g E; cbn [take_cells] in E; [injection E as <-; split; [reflexivity|lia]|].
  apply bind_ok in E. destruct E as [x [Ex E]]. destruct x as [q|]; [|discriminate]. apply bind_ok in E. destruct E as [l [El E]]. injection E as <-.
  destruct (IH _ _ El) as [Ll H]. split; [cbn; now rewrite Ll|]. intros i d Hi. destruct i as [|i]; cbn [nth].
  - rewrite Nat.add_0_r. apply rd_inv in Ex. tauto.
  - rewrite Nat.add_succ_r, <- Nat.add_succ_l. apply H. lia.
Qed.
Lemma buf_grid_ok b g d : buf_grid b = Ok g -> holds (length g) b (fun a => nth a g d) /\ length g = blen b.
Proof. intros E. destruct (take_cells_ok _ _ _ _ E) as [L H]. split; [|exact L]. split; [now rewrite L|]. intros c Hc. apply (H c d). lia. Qed.
Lemma take_cells_safe b : initialised b -> forall n a, a + n <= blen b -> (exists g, take_cells b n a = Ok g /\ length g = n) \/ take_cells b n a = Throw "NaN".
Proof.
  intros [x X]. induction n as [|n IH]; intros a L; cbn [take_cells]; [left; exists []; auto|].
  rewrite (rd_ok b a (x a)) by (try apply X; lia). cbn [bind]. destruct (x a) as [q|]; [|auto]. destruct (IH (S a) ltac:(lia)) as [[g [-> Lg]]| ->]; cbn [bind]; [|auto].
  left. eexists. split; [reflexivity|]. cbn. now rewrite Lg.
Qed.
Lemma take_cells_same b b' : same b b' -> forall n a, a + n <= blen b -> take_cells b n a = take_cells b' n a.
Proof.
  intros [L H]. induction n as [|n IH]; intros a La; cbn [take_cells]; [reflexivity|]. unfold rd. rewrite <- L, H by lia.
  destruct (a <? blen b); [|reflexivity]. destruct (bdat b' a) as [[q|]|]; cbn [bind]; try reflexivity. rewrite IH by lia. reflexivity.
Qed.
Lemma buf_grid_same b b' : same b b' -> buf_grid b = buf_grid b'.
Proof. intros S. unfold buf_grid. rewrite (take_cells_same b b' S) by lia. now rewrite (proj1 S). Qed.
Lemma all_done_finished {T} (c : config T) : all_done c = true <-> finished c.
Proof.
  unfold all_done, finished. rewrite forallb_forall. split; intros H s Hs; specialize (H s Hs); destruct (fst s); try reflexivity; discriminate.
Qed.

(** ** ghost cells and masks of a grid *)
Definition good_dims (o : options) (nX : list nat) : Prop :=
  (exists nx, nX = [nx] /\ 1 <= N o <= nx) \/ (exists nx ny, nX = [nx; ny] /\ 1 <= N o <= nx /\ N o <= ny).
Lemma boundaries_return o wallf (u : buf num) nX bt : good_dims o nX -> (forall k, k < 4 -> bt k <= 5) -> blen u = extended_dimensions nX 0 -> initialised u ->
  exists ub, boundaries num (N o) wallf u (balloc (extended_dimensions nX (N o))) nX bt = Ok ub /\ blen ub = extended_dimensions nX (N o) /\ initialised ub.
Proof.
  intros [(nx & -> & H)|(nx & ny & -> & H & Hy)] Hb Lu [x X].
  - assert (Lu' : blen u = nx) by (rewrite Lu; cbn; lia).
    destruct (boundaries_1d_correct num (N o) wallf u (balloc (extended_dimensions [nx] (N o))) nx bt x ltac:(lia) ltac:(lia) ltac:(intros; apply Hb; lia) Lu' ltac:(intros; apply X; lia) eq_refl) as [ub [E [L W]]].
    exists ub. split; [exact E|]. split; [rewrite L; cbn; lia|]. eexists. intros a Ha. apply W. lia.
  - assert (Lu' : blen u = nx * ny) by (rewrite Lu; unfold extended_dimensions; cbn; lia).
    destruct (boundaries_2d_correct num (N o) wallf u (balloc (extended_dimensions [nx; ny] (N o))) nx ny bt (fun i j => x (i * ny + j)) ltac:(lia) ltac:(lia) Hy ltac:(lia) Hb Lu') as [ub [E [L W]]].
    + intros i j Hi Hj. apply X. rewrite Lu'. apply pack_bound; assumption.
    + reflexivity.
    + exists ub. split; [exact E|]. split; [rewrite L; unfold extended_dimensions; cbn; lia|].
      set (w := ny + 2 * N o) in *. assert (W0 : w <> 0) by lia.
      exists (fun a => match bdat ub a with Some v => v | None => None end). intros a Ha. rewrite L in Ha.
      rewrite (Nat.div_mod_eq a w), (Nat.mul_comm w). rewrite W; [reflexivity|apply Nat.div_lt_upper_bound; lia|apply Nat.mod_upper_bound, W0].
Qed.
Lemma mask_return o (k : buf bool) nX : good_dims o nX -> blen k = extended_dimensions nX 0 -> initialised k ->
  exists mb, extend_mask k (balloc (extended_dimensions nX 1)) nX = Ok mb /\ blen mb = extended_dimensions nX 1 /\ initialised mb.
Proof.
  intros [(nx & -> & H)|(nx & ny & -> & H & Hy)] Lk [x X].
  - assert (Lk' : blen k = nx) by (rewrite Lk; cbn; lia).
    destruct (extend_mask_1d nx k (balloc (extended_dimensions [nx] 1)) x ltac:(lia) Lk' ltac:(intros; apply X; lia) ltac:(cbn; lia)) as [mb [E [L [v [W _]]]]].
    exists mb. split; [exact E|]. split; [rewrite L; cbn; lia|]. exists v. intros a Ha. apply W. lia.
  - assert (Lk' : blen k = nx * ny) by (rewrite Lk; unfold extended_dimensions; cbn; lia).
    destruct (extend_mask_2d nx ny k (balloc (extended_dimensions [nx; ny] 1)) (fun i j => x (i * ny + j)) ltac:(lia) ltac:(lia) Lk') as [mb [E [L [v [W _]]]]].
    + intros i j Hi Hj. apply X. rewrite Lk'. apply pack_bound; assumption.
    + unfold extended_dimensions. cbn. lia.
    + exists mb. split; [exact E|]. split; [rewrite L; unfold extended_dimensions; cbn; lia|].
      set (w := ny + 2) in *. assert (W0 : w <> 0) by lia.
      exists (fun a => match bdat mb a with Some v => v | None => false end). intros a Ha. rewrite L in Ha.
      rewrite (Nat.div_mod_eq a w), (Nat.mul_comm w). rewrite W; [reflexivity|apply Nat.div_lt_upper_bound; lia|apply Nat.mod_upper_bound, W0].
Qed.

(** ** the step of the program *)
Section Step.
Variable o : options.
Variables NODES WGHTS : nat -> R.
Variables ENDVALS DERVALS : nat -> nat -> R.
Variables (SIG : nat -> nat -> R) (LAMS LAMC EPS : R) (inv : stencil -> (nat -> R) -> nat -> R).
Variable wallf : nat -> nat -> num -> num.
Variable ph : matpar -> phys.
Variable prim : matpar -> option ((num -> num) * (num -> num)).
Variable Phi : matpar -> R -> nat -> list num -> res (option (nat -> option nodal)).
Variable valid : matpar -> nodal -> bool.
Variable ode : matpar -> R -> num -> num.
Variables (SPLIT HALF_STEP : bool) (FLUX : nat) (nX : list nat) (bt : nat -> nat) (dX : list R).
Variable team : matpar -> grid -> list bool -> R -> nat * list nat.
Notation dXv := (spacing dX).
Notation advance := (run_advance o NODES WGHTS ENDVALS DERVALS SIG LAMS LAMC EPS inv wallf ph prim Phi valid ode SPLIT HALF_STEP FLUX nX bt dX team).
Notation parallel := (run_para o NODES WGHTS ENDVALS DERVALS SIG LAMS LAMC EPS inv ph prim Phi valid ode SPLIT HALF_STEP FLUX nX dX).
Definition serial_step (m : matpar) (dt : R) (u ub : buf num) (mask : buf bool) : res (buf num) :=
  if SPLIT then split_step o (ph m) DERVALS dt dXv (valid m) NODES WGHTS ENDVALS FLUX SIG LAMS LAMC EPS inv (prim m) (ode m (dt / 2)) HALF_STEP u ub mask nX
  else ader_with o (ph m) NODES WGHTS ENDVALS DERVALS FLUX dt dXv SIG LAMS LAMC EPS inv (prim m) (Phi m dt) u ub mask nX.

Hypothesis HR : runs o FLUX dXv.
Hypothesis HD : good_dims o nX.
Hypothesis HB : forall k, k < 4 -> bt k <= 5.
Hypothesis HT : forall m g k dt, 0 < fst (team m g k dt).
Hypothesis HP : SPLIT = false -> forall m dt, returns_predictor (N o) (option nodal) (Phi m dt) (length nX).
Notation cells := (extended_dimensions nX 0).

Lemma dims_nX : exists nx rest, nX = nx :: rest /\ dims rest /\ 0 < nx /\ length rest <= 1 /\ 1 <= N o.
Proof using HD. clear HP. destruct HD as [(nx & -> & H)|(nx & ny & -> & H & Hy)]; do 2 eexists; (split; [reflexivity|]); (split; [unfold dims; eauto|]); cbn; lia. Qed.

Lemma para_returns m dt u ub mask n : blen u = cells -> initialised u -> blen ub = extended_dimensions nX (N o) -> initialised ub -> blen mask = extended_dimensions nX 1 -> initialised mask -> 0 < n ->
  exists u', blen u' = blen u /\ initialised u' /\ forall sched, exists c, parallel m dt n sched u ub mask = Ok c /\ (finished c -> same u' (snd c)) /\
    exists more c', parallel m dt n (sched ++ more) u ub mask = Ok c' /\ finished c'.
Proof using HR HD HP.
  destruct dims_nX as (nx & rest & E & Hd & Hx & _ & N1). unfold run_para. rewrite E in *. destruct SPLIT.
  - intros Lu Iu Lb Ib Lm Im Hn.
    apply (para_safe (N o) (split_updates (N o) SIG LAMS LAMC EPS inv (prim m) (NO_CORNERS o) (option nodal) _ _ view _ _ HALF_STEP)); auto.
    intros ub' mask' nx' Lb' Ib' Lm' Im'. apply split_any; auto.
    + eapply center_returns; exact HR.
    + eapply face_returns; exact HR.
    + eapply mid_returns; [exact HR|]. apply dims_len, Hd.
  - intros Lu Iu Lb Ib Lm Im Hn.
    apply (para_safe (N o) (fun _ => ader_updates (N o) SIG LAMS LAMC EPS inv (prim m) (NO_CORNERS o) (option nodal) _ _ (Phi m dt))); auto.
    intros ub' mask' nx' Lb' Ib' Lm' Im'. apply ader_any; auto.
    + eapply center_returns; exact HR.
    + eapply face_returns; exact HR.
Qed.
Lemma serial_returns m dt u ub mask : blen u = cells -> initialised u -> blen ub = extended_dimensions nX (N o) -> initialised ub -> blen mask = extended_dimensions nX 1 -> initialised mask ->
  exists u', serial_step m dt u ub mask = Ok u' /\ blen u' = blen u /\ initialised u'.
Proof using HR HD HP.
  destruct dims_nX as (nx & rest & E & Hd & Hx & _ & N1). unfold serial_step. rewrite E in *. intros Lu Iu Lb Ib Lm Im. destruct SPLIT.
  - apply (serial_safe (N o) (split_updates (N o) SIG LAMS LAMC EPS inv (prim m) (NO_CORNERS o) (option nodal) _ _ view _ _ HALF_STEP)); auto.
    intros ub' mask' nx' Lb' Ib' Lm' Im'. apply split_any; auto.
    + eapply center_returns; exact HR.
    + eapply face_returns; exact HR.
    + eapply mid_returns; [exact HR|]. apply dims_len, Hd.
  - apply (serial_safe (N o) (fun _ => ader_updates (N o) SIG LAMS LAMC EPS inv (prim m) (NO_CORNERS o) (option nodal) _ _ (Phi m dt))); auto.
    intros ub' mask' nx' Lb' Ib' Lm' Im'. apply ader_any; auto.
    + eapply center_returns; exact HR.
    + eapply face_returns; exact HR.
Qed.

(** one call: never undefined; a number of cells is kept *)
Lemma advance_returns m g k dt : length g = cells -> length k = cells ->
  (exists g', advance m g k dt = Ok g' /\ length g' = length g) \/ advance m g k dt = Throw "NaN" \/ advance m g k dt = NoFuel.
Proof using HR HD HB HT HP.
  intros Lg Lk. unfold run_advance.
  destruct (boundaries_return o wallf (grid_buf g) nX bt HD HB Lg (grid_buf_init g)) as [ub [-> [Lb Ib]]]. cbn [bind].
  destruct (mask_return o (mask_buf k) nX HD Lk (mask_buf_init k)) as [mb [-> [Lm Im]]]. cbn [bind].
  pose proof (HT m g k dt) as Hn. destruct (team m g k dt) as [n sched]. cbn [fst] in Hn.
  destruct (para_returns m dt (grid_buf g) ub mb n Lg (grid_buf_init g) Lb Ib Lm Im Hn) as [u' [Lu' [Iu' H]]].
  destruct (H sched) as [c [-> [F _]]]. cbn [bind]. destruct (all_done c) eqn:Ed; [|auto]. apply all_done_finished in Ed. specialize (F Ed).
  rewrite <- (buf_grid_same _ _ F). destruct (take_cells_safe u' Iu' (blen u') 0 ltac:(lia)) as [[g' [E L]]|E].
  - left. exists g'. split; [exact E|]. rewrite L. exact Lu'.
  - right. left. exact E.
Qed.
(** what it computes is the serial step, in one dimension and in two when NO_CORNERS is off *)
Lemma advance_serial m g k dt g' d : length g = cells -> length k = cells -> (length nX = 2 -> NO_CORNERS o = false) -> advance m g k dt = Ok g' ->
  exists ub mb u1, boundaries num (N o) wallf (grid_buf g) (balloc (extended_dimensions nX (N o))) nX bt = Ok ub /\ extend_mask (mask_buf k) (balloc (extended_dimensions nX 1)) nX = Ok mb /\
    serial_step m dt (grid_buf g) ub mb = Ok u1 /\ holds (length g) u1 (fun a => nth a g' d) /\ length g' = length g.
Proof using HR HD HB HT HP.
  intros Lg Lk Hnc E. unfold run_advance in E.
  destruct (boundaries_return o wallf (grid_buf g) nX bt HD HB Lg (grid_buf_init g)) as [ub [Eb [Lb Ib]]]. rewrite Eb in E. cbn [bind] in E.
  destruct (mask_return o (mask_buf k) nX HD Lk (mask_buf_init k)) as [mb [Em [Lm Im]]]. rewrite Em in E. cbn [bind] in E.
  destruct (serial_returns m dt (grid_buf g) ub mb Lg (grid_buf_init g) Lb Ib Lm Im) as [u1 [E1 [L1 I1]]].
  exists ub, mb, u1. split; [exact Eb|]. split; [exact Em|]. split; [exact E1|].
  pose proof (HT m g k dt) as Hn. destruct (team m g k dt) as [n sched]. cbn [fst] in Hn.
  assert (WF : well_formed (N o) (grid_buf g) ub mb nX).
  { destruct dims_nX as (nx & rest & En & Hd & Hx & Hr & _). split; [exists nx, rest; auto|]. repeat split; try assumption; apply grid_buf_init. }
  assert (N1 : 1 <= N o) by (destruct dims_nX as (_ & _ & _ & _ & _ & _ & N1); exact N1).
  assert (S : exists c, parallel m dt n sched (grid_buf g) ub mb = Ok c /\ (finished c -> same u1 (snd c))).
  { unfold serial_step in E1. unfold run_para. destruct SPLIT.
    - apply split_para_is_serial_partial; assumption.
    - apply ader_para_is_serial_partial; assumption. }
  destruct S as [c [Ec F]]. rewrite Ec in E. cbn [bind] in E. destruct (all_done c) eqn:Ed; [|discriminate]. apply all_done_finished in Ed. specialize (F Ed).
  rewrite <- (buf_grid_same _ _ F) in E. destruct (buf_grid_ok u1 g' d E) as [H L]. assert (LL : length g' = length g) by (rewrite L; exact L1). rewrite LL in H. auto.
Qed.
End Step.
