(** Threads with disjoint footprints: no schedule is stuck, and every schedule ends in the same state. *)
From Verif Require Import Base FvModel FvProof StepperModel.
Import List ListNotations.
Open Scope nat_scope.

Section P.
Variable T : Type.
Notation upd_list := (list (update T)).

Definition disjoint (ops : list upd_list) : Prop :=
  forall i j li lj p q, nth_error ops i = Some li -> nth_error ops j = Some lj -> In p li -> In q lj -> fst p = fst q -> i = j.
Definition in_range (ops : list upd_list) (n : nat) : Prop := forall l p, In l ops -> In p l -> fst p < n.

Section Run.
Variables (ops : list upd_list) (n : nat) (x : nat -> T).
Hypothesis D : disjoint ops.
Hypothesis B : in_range ops n.

Definition pend (l done : upd_list) (s : tstate T) : Prop :=
  l = done ++ fst s /\ match snd s with None => True | Some v => exists a e r, fst s = (a, e) :: r /\ v = run (at_cell a done) (x a) end.

(** [dn i] : what thread i has performed *)
Definition inv (c : config T) : Prop :=
  length (fst c) = length ops /\ blen (snd c) = n /\
  exists dn : nat -> upd_list,
    (forall i l s, nth_error ops i = Some l -> nth_error (fst c) i = Some s -> pend l (dn i) s) /\
    (forall i l a, nth_error ops i = Some l -> (exists p, In p l /\ fst p = a) -> bdat (snd c) a = Some (run (at_cell a (dn i)) (x a))) /\
    (forall a, a < n -> (forall l p, In l ops -> In p l -> fst p <> a) -> bdat (snd c) a = Some (x a)).

Lemma nth_set {A} (l : list A) i s j : i < length l -> nth_error (firstn i l ++ s :: skipn (S i) l) j = if Nat.eqb j i then Some s else nth_error l j.
Proof.
  intros H. destruct (Nat.eqb_spec j i) as [->|Ne].
  - rewrite nth_error_app2; rewrite firstn_length_le by lia; [rewrite Nat.sub_diag; reflexivity|lia].
  - destruct (Nat.lt_ge_cases j i) as [Lt|Ge].
    + rewrite nth_error_app1 by (rewrite firstn_length_le; lia).
      rewrite <- (firstn_skipn i l) at 2. rewrite nth_error_app1 by (rewrite firstn_length_le; lia). reflexivity.
    + rewrite nth_error_app2 by (rewrite firstn_length_le; lia). rewrite firstn_length_le by lia.
      destruct (j - i) as [|k] eqn:E; [lia|]. cbn [nth_error].
      rewrite <- (firstn_skipn (S i) l) at 2. rewrite nth_error_app2 by (rewrite firstn_length_le; lia).
      rewrite firstn_length_le by lia. f_equal. lia.
Qed.
Lemma len_set {A} (l : list A) i s : i < length l -> length (firstn i l ++ s :: skipn (S i) l) = length l.
Proof. intros H. rewrite app_length, firstn_length_le by lia. cbn [length]. rewrite skipn_length. lia. Qed.

Lemma run_snoc a (l : upd_list) (e : T -> T) b v : run (at_cell a (l ++ [(b, e) : update T])) v = if Nat.eqb b a then e (run (at_cell a l) v) else run (at_cell a l) v.
Proof. rewrite at_app. unfold run. rewrite fold_left_app. unfold at_cell at 1. cbn [filter fst].  destruct (Nat.eqb b a); reflexivity. Qed.

Lemma inv_step i c : inv c -> exists c', cstep i c = Ok c' /\ inv c'.
Proof.
  intros [HL [HB [dn [H1 [H2 H3]]]]]. unfold cstep. destruct c as [ss u]. cbn [fst snd] in *.
  destruct (nth_error ss i) as [s|] eqn:Es; [|exists (ss, u); split; [reflexivity|]; split; [exact HL|]; split; [exact HB|]; exists dn; auto].
  assert (Hi : i < length ss) by (apply nth_error_Some; congruence).
  destruct (nth_error ops i) as [l|] eqn:El; [|apply nth_error_None in El; lia].
  destruct (H1 i l s El Es) as [Hl Hr]. destruct s as [r o]. cbn [fst snd] in *.
  destruct r as [|[a e] r]; cbn [tstep]; [exists (ss, u); split; [reflexivity|]; split; [exact HL|]; split; [exact HB|]; exists dn; auto|].
  assert (Ia : exists p, In p l /\ fst p = a) by (exists (a, e); rewrite Hl; split; [apply in_or_app; right; now left|reflexivity]).
  assert (La : a < n) by (destruct Ia as [p [Ip <-]]; apply (B l p); [eapply nth_error_In; exact El|exact Ip]).
  destruct o as [v|]; cbn [tstep].
  - destruct Hr as [a' [e' [r' [Eq Ev]]]]. injection Eq as <- <- <-.
    rewrite wr_ok by (rewrite HB; exact La). cbn [bind]. eexists. split; [reflexivity|]. unfold inv. cbn [fst snd blen bdat].
    rewrite len_set by exact Hi. split; [exact HL|]. split; [exact HB|].
    exists (upd dn i (dn i ++ [(a, e)])). split; [|split].
    + intros j lj sj Hj. rewrite nth_set by exact Hi. destruct (Nat.eqb_spec j i) as [->|Ne].
      * intros [= <-]. rewrite upd_same. split; cbn [fst snd]; [|exact I]. rewrite El in Hj. injection Hj as <-. rewrite Hl, <- app_assoc. reflexivity.
      * rewrite upd_other by exact Ne. apply H1, Hj.
    + intros j lj b Hj [p [Ip Eb]]. destruct (Nat.eq_dec j i) as [->|Ne].
      * rewrite upd_same, run_snoc. unfold upd. rewrite (Nat.eqb_sym b a). destruct (Nat.eqb_spec a b) as [<-|Nab]; [rewrite Ev; reflexivity|].
        apply (H2 i lj b Hj). eauto.
      * rewrite (upd_other dn) by exact Ne. unfold upd. destruct (Nat.eqb_spec b a) as [->|Nab]; [|apply (H2 j lj b Hj); eauto].
        exfalso. apply Ne. destruct Ia as [q [Iq Eq]]. apply (D j i lj l p q Hj El Ip Iq). congruence.
    + intros b Hb Hn. unfold upd. destruct (Nat.eqb_spec b a) as [->|Nab]; [|apply H3; assumption].
      exfalso. destruct Ia as [p [Ip Ep]]. apply (Hn l p); [eapply nth_error_In; exact El|exact Ip|exact Ep].
  - rewrite (rd_ok u a (run (at_cell a (dn i)) (x a))); [|rewrite HB; exact La|apply (H2 i l a El Ia)]. cbn [bind].
    eexists. split; [reflexivity|]. unfold inv. cbn [fst snd]. rewrite len_set by exact Hi. split; [exact HL|]. split; [exact HB|].
    exists dn. split; [|split; assumption].
    intros j lj sj Hj. rewrite nth_set by exact Hi. destruct (Nat.eqb_spec j i) as [->|Ne]; [|apply H1, Hj].
    intros [= <-]. rewrite El in Hj. injection Hj as <-. split; cbn [fst snd]; [exact Hl|]. exists a, e, r. auto.
Qed.

Lemma inv_start u : blen u = n -> (forall a, a < n -> bdat u a = Some (x a)) -> inv (start_config ops u).
Proof.
  intros HB Hx. unfold inv, start_config. cbn [fst snd]. rewrite map_length. split; [reflexivity|]. split; [exact HB|].
  exists (fun _ => []). split; [|split].
  - intros i l s E. rewrite nth_error_map, E. cbn. intros [= <-]. split; [reflexivity|exact I].
  - intros i l a E [p [Ip <-]]. cbn. apply Hx. apply (B l p); [eapply nth_error_In; exact E|exact Ip].
  - intros a Ha _. apply Hx, Ha.
Qed.

Lemma inv_run sched : forall c, inv c -> exists c', crun sched c = Ok c' /\ inv c'.
Proof.
  induction sched as [|i s IH]; intros c H; cbn; [eauto|]. destruct (inv_step i c H) as [c1 [E1 I1]]. unfold crun in IH. rewrite E1. cbn [bind]. apply IH, I1.
Qed.

Lemma at_none a (l : upd_list) : (forall p, In p l -> fst p <> a) -> at_cell a l = [].
Proof.
  induction l as [|[b e] l IH]; intros H; [reflexivity|]. etransitivity; [exact (at_cons a b e l)|]. rewrite IH by (intros p Hp; apply H; now right).
  destruct (Nat.eqb_spec b a) as [->|]; [exfalso; apply (H (a, e)); [now left|reflexivity]|reflexivity].
Qed.

Lemma concat_split {A} (ls : list (list A)) i l : nth_error ls i = Some l -> concat ls = concat (firstn i ls) ++ l ++ concat (skipn (S i) ls).
Proof.
  revert i. induction ls as [|h ls IH]; intros [|i] E; cbn in E; try discriminate.
  - injection E as ->. reflexivity.
  - cbn [concat firstn skipn]. rewrite (IH i E) at 1. now rewrite app_assoc.
Qed.

Lemma in_firstn {A} (ls : list A) i l : In l (firstn i ls) -> exists j, j < i /\ nth_error ls j = Some l.
Proof.
  revert i. induction ls as [|h ls IH]; intros [|i] H; cbn in H; try contradiction.
  destruct H as [->|H]; [exists 0; split; [lia|reflexivity]|]. destruct (IH i H) as [j [Hj E]]. exists (S j). split; [lia|exact E].
Qed.
Lemma in_skipn {A} (ls : list A) i l : In l (skipn i ls) -> exists j, i <= j /\ nth_error ls j = Some l.
Proof.
  revert i. induction ls as [|h ls IH]; intros [|i] H; cbn in H; try contradiction.
  - destruct H as [->|H]; [exists 0; split; [lia|reflexivity]|]. destruct (In_nth_error _ _ H) as [j E]. exists (S j). split; [lia|exact E].
  - destruct (IH i H) as [j [Hj E]]. exists (S j). split; [lia|exact E].
Qed.

Lemma at_own i l a : nth_error ops i = Some l -> (exists p, In p l /\ fst p = a) -> at_cell a (concat ops) = at_cell a l.
Proof.
  intros E [p [Ip Ea]]. rewrite (concat_split ops i l E), !at_app.
  rewrite (at_none a (concat (firstn i ops))), (at_none a (concat (skipn (S i) ops))).
  - now rewrite app_nil_r.
  - intros q Hq Eq. apply in_concat in Hq. destruct Hq as [l' [Hl' Iq]]. apply in_skipn in Hl'. destruct Hl' as [j [Hj Ej]].
    pose proof (D i j l l' p q E Ej Ip Iq ltac:(congruence)). lia.
  - intros q Hq Eq. apply in_concat in Hq. destruct Hq as [l' [Hl' Iq]]. apply in_firstn in Hl'. destruct Hl' as [j [Hj Ej]].
    pose proof (D i j l l' p q E Ej Ip Iq ltac:(congruence)). lia.
Qed.

Lemma inv_finished c : inv c -> finished c -> forall a, a < n -> bdat (snd c) a = Some (run (at_cell a (concat ops)) (x a)).
Proof.
  intros [HL [HB [dn [H1 [H2 H3]]]]] F a Ha.
  destruct (Exists_dec (fun l : upd_list => exists p, In p l /\ fst p = a) ops) as [E|E].
  { intros l. destruct (Exists_dec (fun p : update T => fst p = a) l) as [Y|Nn]; [intros p; apply Nat.eq_dec|left; apply Exists_exists in Y; exact Y|].
    right. intros [p Hp]. apply Nn, Exists_exists. eauto. }
  - apply Exists_exists in E. destruct E as [l [Il Hp]]. destruct (In_nth_error _ _ Il) as [i Ei].
    destruct (nth_error (fst c) i) as [s|] eqn:Es; [|apply nth_error_None in Es; assert (i < length ops) by (apply nth_error_Some; congruence); lia].
    destruct (H1 i l s Ei Es) as [Hl _]. rewrite (F s) in Hl by (eapply nth_error_In; exact Es). rewrite app_nil_r in Hl.
    rewrite (H2 i l a Ei Hp), <- Hl, (at_own i l a Ei Hp). reflexivity.
  - assert (Nn : forall l p, In l ops -> In p l -> fst p <> a) by (intros l p Il Ip Ea; apply E, Exists_exists; eauto).
    rewrite H3 by assumption. rewrite at_none; [reflexivity|]. intros p Hp. apply in_concat in Hp. destruct Hp as [l [Il Ip]]. apply (Nn l p Il Ip).
Qed.
End Run.

(** every schedule is safe; every schedule that finishes ends in the state of the sequential execution *)
Lemma threads_ok ops (u : buf T) x : disjoint ops -> in_range ops (blen u) -> (forall a, a < blen u -> bdat u a = Some (x a)) ->
  forall sched, exists c, crun sched (start_config ops u) = Ok c /\ blen (snd c) = blen u /\
    (finished c -> forall a, a < blen u -> bdat (snd c) a = Some (run (at_cell a (concat ops)) (x a))).
Proof.
  intros D B X sched. destruct (inv_run ops (blen u) x D B sched (start_config ops u)) as [c [E I]].
  { apply inv_start; auto. }
  exists c. split; [exact E|]. split; [apply I|]. intros F. apply (inv_finished ops (blen u) x D c I F).
Qed.

(** ** some schedule finishes *)
Definition todo (s : tstate T) : nat := 2 * length (fst s) - match fst s, snd s with _ :: _, Some _ => 1 | _, _ => 0 end.

(** the number of steps left in all the threads *)
Definition left_over (c : config T) : nat := list_sum (map todo (fst c)).

Lemma sum_set (l : list (tstate T)) i s s' : nth_error l i = Some s ->
  list_sum (map todo (firstn i l ++ s' :: skipn (S i) l)) + todo s = list_sum (map todo l) + todo s'.
Proof.
  revert i. induction l as [|h l IH]; intros [|i] E; cbn in E; try discriminate.
  - injection E as ->. cbn [firstn skipn app map list_sum fold_right]. unfold list_sum. cbn. lia.
  - cbn [firstn app map]. specialize (IH i E). unfold list_sum in *. cbn [fold_right]. change (skipn (S (S i)) (h :: l)) with (skipn (S i) l). lia.
Qed.

Lemma step_left ops n x (D : disjoint ops) (B : in_range ops n) i c s : inv ops n x c -> nth_error (fst c) i = Some s -> fst s <> [] ->
  exists c', cstep i c = Ok c' /\ left_over c = S (left_over c') /\ inv ops n x c'.
Proof.
  intros I Es Hs. destruct (inv_step ops n x D B i c I) as [c' [E I']]. exists c'. split; [exact E|]. split; [|exact I'].
  unfold cstep in E. rewrite Es in E. destruct s as [[|[a e] r] o]; [contradiction Hs; reflexivity|]. cbn [tstep] in E.
  assert (aux : forall A B C D : nat, A + D = B + C -> D = S C -> B = S A) by lia.
  destruct o as [v|]; cbn [tstep] in E; apply bind_ok in E; destruct E as [[s' u'] [E1 E2]];
    assert (L : left_over c' = list_sum (map todo (firstn i (fst c) ++ s' :: skipn (S i) (fst c)))) by (injection E2 as E2; rewrite <- E2; reflexivity);
    rewrite L; unfold left_over; clear E2 L; apply bind_ok in E1; destruct E1 as [w [Ew [= <- <-]]].
  - pose proof (sum_set (fst c) i _ (r, None) Es) as S1.
    assert (K : todo ((a, e) :: r, Some v) = S (todo (r, None))) by (unfold todo; cbn [fst snd length]; destruct r; cbn [length]; lia). exact (aux _ _ _ _ S1 K).
  - pose proof (sum_set (fst c) i _ ((a, e) :: r, Some w) Es) as S1.
    assert (K : todo ((a, e) :: r, None) = S (todo ((a, e) :: r, Some w))) by (unfold todo; cbn [fst snd length]; lia). exact (aux _ _ _ _ S1 K).
Qed.

(** from every configuration of an execution the threads can be run to the end *)
Lemma can_finish ops n x (D : disjoint ops) (B : in_range ops n) : forall k c, left_over c = k -> inv ops n x c ->
  exists sched c', crun sched c = Ok c' /\ finished c'.
Proof.
  induction k as [|k IH]; intros c Hk I.
  - exists [], c. split; [reflexivity|]. intros s Is. unfold left_over in Hk.
    assert (Z : todo s = 0). { induction (fst c) as [|h l IHl]; [contradiction|]. unfold list_sum in *. cbn [map fold_right] in Hk. destruct Is as [->|Is]; [lia|apply IHl; [lia|exact Is]]. }
    destruct s as [[|p r] [v|]]; [reflexivity|reflexivity| |]; unfold todo in Z; cbn in Z; lia.
  - assert (X : exists i s, nth_error (fst c) i = Some s /\ fst s <> []).
    { unfold left_over in Hk. clear -Hk. induction (fst c) as [|h l IHl]; [discriminate|]. destruct h as [[|p r] o].
      - destruct IHl as [i [s [E N]]]; [destruct o; unfold list_sum in *; cbn in *; exact Hk|]. exists (S i), s. auto.
      - exists 0, (p :: r, o). split; [reflexivity|discriminate]. }
    destruct X as [i [s [Es Hs]]]. destruct (step_left ops n x D B i c s I Es Hs) as [c1 [E1 [L1 I1]]].
    destruct (IH c1 ltac:(lia) I1) as [sched [c2 [E2 F2]]]. exists (i :: sched), c2. split; [|exact F2]. unfold crun in *. cbn [fold_res]. rewrite E1. exact E2.
Qed.

Lemma threads_finish ops (u : buf T) x : disjoint ops -> in_range ops (blen u) -> (forall a, a < blen u -> bdat u a = Some (x a)) ->
  forall sched c, crun sched (start_config ops u) = Ok c -> exists sched' c', crun (sched ++ sched') (start_config ops u) = Ok c' /\ finished c'.
Proof.
  intros D B X sched c E. destruct (inv_run ops (blen u) x D B sched (start_config ops u)) as [c1 [E1 I]]; [apply inv_start; auto|].
  rewrite E in E1. injection E1 as <-. destruct (can_finish ops (blen u) x D B _ c eq_refl I) as [s' [c' [E' F]]].
  exists s', c'. split; [|exact F]. unfold crun in *. rewrite fold_res_app, E. exact E'.
Qed.
End P.
