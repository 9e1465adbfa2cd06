(** A run only depends on what its steps compute. *)
From Coq Require Import Reals Lia Lra ZArith.
From Verif Require Import Base Options Mat3 PhysModel UtilsModel UtilsProof UtilsProps IterModel IterSpec IterProof IterProof2 IterProps RunProof2 Run2Props MRunProof.
Import List ListNotations.
Open Scope nat_scope.

Lemma each_cell_length f : forall (u : grid) i u', each_cell f i u = Ok u' -> length u' = length u.
Proof.
  induction u as [|q u IH]; intros i u' E; cbn [each_cell] in E; [injection E as <-; reflexivity|].
  apply bind_ok in E. destruct E as (q' & _ & E). apply bind_ok in E. destruct E as (v & Ev & E). injection E as <-. cbn. f_equal. exact (IH _ _ Ev).
Qed.

Section Same.
Variable o : options.
Variable svd : mat3 -> vec3 * mat3.
Variable speed : vec -> nat -> matpar -> option R.
Variable fill : list grid -> list (list bool) -> grid -> R -> res (grid * list grid * list (list bool)).
Variables advance advance' : matpar -> grid -> list bool -> R -> res grid.
Variable nan : grid -> bool.
Variable ROT : bool.
Variables (dX : list R) (CFL tf tol : R) (MPs : list matpar).
Variable n : nat.
Notation turn a := (turn o svd speed fill a nan ROT dX CFL tf tol MPs).
Notation run a := (run o svd speed fill a nan ROT dX CFL tf tol MPs).
Hypothesis Hfill : forall gs ms (u : grid) dt u' gs' ms', shaped n MPs gs ms -> length u = n -> fill gs ms u dt = Ok (u', gs', ms') -> length u' = n /\ shaped n MPs gs' ms'.
Hypothesis Hkeep : forall m g k dt g', In m MPs -> length g = n -> length k = n -> advance m g k dt = Ok g' -> length g' = n.
Hypothesis Hsame : forall m g k dt, In m MPs -> length g = n -> length k = n -> advance' m g k dt = advance m g k dt.

Lemma advance_all_same ms dt : length ms = length MPs -> (forall k, In k ms -> length k = n) -> forall k lo gs, lo + k <= length MPs -> length gs = length MPs -> (forall g, In g gs -> length g = n) ->
  let body a := (fun mat gs => m <- get MPs mat ;; if mp_void m then Ok gs else g <- get gs mat ;; k <- get ms mat ;; g' <- a m g k dt ;; Ok (firstn mat gs ++ g' :: skipn (S mat) gs)) in
  for_loop k lo (body advance') gs = for_loop k lo (body advance) gs /\ forall gs', for_loop k lo (body advance) gs = Ok gs' -> length gs' = length MPs /\ forall g, In g gs' -> length g = n.
Proof using Hkeep Hsame.
  intros S2 S4. induction k as [|k IH]; intros lo gs Hl S1 S3 body; cbn [for_loop]; [split; [reflexivity|]; intros gs' E; injection E as <-; auto|].
  assert (B : forall a, body a lo gs = (m <- get MPs lo ;; if mp_void m then Ok gs else g <- get gs lo ;; k <- get ms lo ;; g' <- a m g k dt ;; Ok (firstn lo gs ++ g' :: skipn (S lo) gs))) by reflexivity.
  rewrite !B. clear B. destruct (get_ok MPs lo ltac:(lia)) as [m [-> Em]]. cbn [bind]. apply nth_error_In in Em.
  destruct (mp_void m); [cbn [bind]; apply IH; [lia|assumption|assumption]|].
  destruct (get_ok gs lo ltac:(lia)) as [g [-> Eg]]. destruct (get_ok ms lo ltac:(lia)) as [kk [-> Ek]]. cbn [bind].
  assert (Lg : length g = n) by (apply S3, (nth_error_In _ _ Eg)). assert (Lk : length kk = n) by (apply S4, (nth_error_In _ _ Ek)).
  rewrite Hsame by assumption. destruct (advance m g kk dt) as [g'| | |] eqn:Ea; cbn [bind]; try (split; [reflexivity|discriminate]).
  pose proof (Hkeep _ _ _ _ _ Em Lg Lk Ea) as Lg'. apply IH; [lia| |].
  - rewrite app_length. cbn [length]. rewrite firstn_length, skipn_length. lia.
  - intros x Hx. apply in_app_iff in Hx. destruct Hx as [Hx|[<-|Hx]]; [apply S3; rewrite <- (firstn_skipn lo gs); apply in_app_iff; left; exact Hx|exact Lg'|].
    apply S3. rewrite <- (firstn_skipn (S lo) gs). apply in_app_iff. right. exact Hx.
Qed.
Lemma all_same gs ms dt : shaped n MPs gs ms -> advance_all advance' MPs gs ms dt = advance_all advance MPs gs ms dt /\ forall gs', advance_all advance MPs gs ms dt = Ok gs' -> shaped n MPs gs' ms.
Proof using Hkeep Hsame.
  intros [S1 [S2 [S3 S4]]]. unfold advance_all. destruct (advance_all_same ms dt S2 S4 (length MPs) 0 gs ltac:(lia) S1 S3) as [E H]. split; [exact E|].
  intros gs' E'. destruct (H gs' E') as [L G]. split; [exact L|]. split; [exact S2|]. split; [exact G|exact S4].
Qed.
Lemma turn_same s : shaped n MPs (s_grids s) (s_masks s) -> length (s_u s) = n -> turn advance' s = turn advance s /\
  forall s', turn advance s = Ok (inl s') -> shaped n MPs (s_grids s') (s_masks s') /\ length (s_u s') = n.
Proof using Hfill Hkeep Hsame.
  intros SH Lu. unfold IterModel.turn.
  match goal with |- (bind ?pre _ = _) /\ _ => destruct pre as [[[u0 gs] ms]| | |] eqn:EP end; cbn [bind]; try (split; [reflexivity|discriminate]).
  assert (S0 : length u0 = n /\ shaped n MPs gs ms).
  { destruct (Nat.ltb 0 (LSET o)); [eapply Hfill; eassumption|]. destruct SH as [S1 [S2 [S3 S4]]]. destruct (s_grids s) as [|g0 rest]; [discriminate|].
    apply Ok_inj in EP. injection EP as EP1 EP2 EP3. subst u0 gs ms. split; [exact Lu|]. split; [exact S1|]. split; [exact S2|]. split; [|exact S4].
    intros g [<-|Hg]; [exact Lu|]. apply S3. right. exact Hg. }
  destruct S0 as [L0 SG].
  match goal with |- (bind ?t _ = _) /\ _ => destruct t as [[dt|]| | |] end; cbn [bind]; try (split; [reflexivity|discriminate]).
  destruct (all_same gs ms dt SG) as [-> HA]. split; [reflexivity|]. intros s' E.
  apply bind_ok in E. destruct E as (gs1 & E1 & E). specialize (HA gs1 E1). apply bind_ok in E. destruct E as (u1 & E2 & E).
  assert (L1 : length u1 = n).
  { destruct (Nat.ltb 0 (LSET o)).
    - unfold make_u in E2. rewrite (each_cell_length _ _ _ _ E2). exact L0.
    - unfold UtilsModel.get in E2. destruct (nth_error gs1 0) eqn:EN; [|discriminate]. injection E2 as <-. apply nth_error_In in EN. apply HA, EN. }
  apply bind_ok in E. destruct E as (u2 & E3 & E). apply bind_ok in E. destruct E as (u3 & E4 & E). apply bind_ok in E. destruct E as (b & E5 & E). apply bind_ok in E. destruct E as (u4 & E6 & E).
  assert (L2 : length u2 = n).
  { unfold renorm_distortion in E3. rewrite (each_cell_length _ _ _ _ E3), limit_length. exact L1. }
  assert (L3 : length u3 = n).
  { destruct (_ && _)%bool; [|injection E4 as <-; exact L2]. unfold rotate_distortion in E4. rewrite (each_cell_length _ _ _ _ E4). exact L2. }
  assert (L4 : length u4 = n).
  { destruct b; [|injection E6 as <-; exact L3]. unfold reset_distortion in E6. rewrite (each_cell_length _ _ _ _ E6). exact L3. }
  apply bind_ok in E. destruct E as ([rt p] & E7 & E). destruct (nan u4).
  - apply bind_ok in E. destruct E as (r1 & _ & E). apply bind_ok in E. destruct E as (r2 & _ & E). discriminate.
  - injection E as <-. cbn [s_grids s_masks s_u]. auto.
Qed.
Lemma run_same : forall fuel s, shaped n MPs (s_grids s) (s_masks s) -> length (s_u s) = n -> run advance' fuel s = run advance fuel s.
Proof using Hfill Hkeep Hsame.
  induction fuel as [|fuel IH]; intros s SH Lu; cbn [IterModel.run]; [reflexivity|]. destruct (Rlt_dec (s_t s) tf); [|reflexivity].
  destruct (turn_same s SH Lu) as [-> H]. destruct (turn advance s) as [[s'|s']| | |] eqn:E; cbn [bind]; try reflexivity. destruct (H s' eq_refl) as [SH' L']. apply IH; assumption.
Qed.
Lemma iterator_same fuel (u : grid) : length u = n -> iterator o svd speed fill advance' nan ROT dX CFL tf tol MPs fuel u = iterator o svd speed fill advance nan ROT dX CFL tf tol MPs fuel u.
Proof using Hfill Hkeep Hsame.
  intros Lu. unfold iterator. apply run_same; [|exact Lu]. unfold init; cbn [s_grids s_masks]. split; [apply repeat_length|]. split; [apply repeat_length|]. split.
  - intros g Hg. apply repeat_spec in Hg. subst g. exact Lu.
  - intros k Hk. apply repeat_spec in Hk. subst k. rewrite repeat_length. exact Lu.
Qed.
End Same.
