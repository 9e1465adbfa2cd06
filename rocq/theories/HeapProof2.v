(** Draining the heap, exact contract of [push], and the self test. *)
From Coq Require Import Sorting.Permutation.
From Verif Require Import Base HeapModel HeapSpec HeapProof.

Section HeapP2.
Variable D : Type.
Variable ltb : D -> D -> bool.
Variable d0 : D.
Hypothesis ltb_irrefl : forall a, ltb a a = false.
Hypothesis ltb_trans : forall a b c, ltb a b = true -> ltb b c = true -> ltb a c = true.
Hypothesis ltb_total : forall a b, ltb a b = false -> ltb b a = false -> a = b.

Lemma entries_size (m : bag D) : List.length (entries m) = size m.
Proof. unfold entries, size. induction (seq 0 (next m)) as [|x l IH]; cbn; [reflexivity|].
  destruct (live m x); cbn; rewrite IH; reflexivity. Qed.

Lemma entries_in (m : bag D) h e : h < next m -> live m h = Some e -> In e (entries m).
Proof. intros Hh E. unfold entries. apply in_flat_map. exists h. split; [apply in_seq; lia|].
  rewrite E. cbn. auto. Qed.
Lemma entries_inv (m : bag D) e : In e (entries m) -> exists h, live m h = Some e.
Proof. unfold entries. rewrite in_flat_map. intros [h [_ Hh]]. exists h.
  destruct (live m h); cbn in Hh; [destruct Hh; [congruence|tauto]|tauto]. Qed.

Lemma flat_upd_none (f : nat -> option (nat*D)) h e l : NoDup l -> In h l -> f h = Some e ->
  Permutation (flat_map (fun h => match f h with Some e => [e] | None => [] end) l)
    (e :: flat_map (fun x => match upd f h None x with Some e => [e] | None => [] end) l).
Proof.
  induction l as [|x l IH]; cbn; intros ND Hin E; [tauto|].
  inversion ND as [|x' l' Nx ND']; subst. destruct Hin as [->|Hin].
  - rewrite E, upd_same. cbn. constructor.
    replace (flat_map (fun x => match upd f h None x with Some e0 => [e0] | None => [] end) l)
      with (flat_map (fun h0 => match f h0 with Some e0 => [e0] | None => [] end) l); [reflexivity|].
    clear -Nx. induction l as [|y l IH]; cbn; [reflexivity|].
    rewrite upd_other by (intros ->; apply Nx; left; reflexivity). rewrite IH; [reflexivity|].
    intros C. apply Nx. right. exact C.
  - rewrite upd_other by (intros ->; contradiction). rewrite (IH ND' Hin E).
    destruct (f x); cbn; [apply perm_swap|reflexivity].
Qed.

Lemma rep_live_next cap s (m : bag D) h : rep D ltb cap s m -> live m h <> None -> h < next m.
Proof. intros [[H [K [A [W [F [O [L1 L2]]]]]]] RC RN RS] Hl.
  destruct (L2 h Hl) as [i [Hi <-]]. rewrite RN. apply (wf_small _ _ _ _ _ W). exact Hi. Qed.

Lemma drain cap : forall n s (m : bag D), rep D ltb cap s m -> size m = n ->
  exists s' l, hexec ltb s (repeat OPop n) = Ok (s', map (fun e => RPopped (fst e) (snd e)) l) /\
    Permutation (entries m) l /\ nondecreasing ltb l /\ empty s' = true.
Proof.
  induction n as [|n IH]; intros s m R Hn.
  - exists s, []. cbn. split; [reflexivity|].
    pose proof (entries_size m) as E. rewrite Hn in E. destruct (entries m); [|discriminate].
    split; [constructor|]. split; [constructor|]. unfold empty. destruct R. rewrite Hn in *.
    apply Nat.eqb_eq. congruence.
  - destruct (pop_ok D ltb ltb_irrefl ltb_trans ltb_total cap s m R) as [s1 [h [a [d [E [Hl [Hmin R1]]]]]]]; [lia|].
    set (m1 := mkbag (next m) (upd (live m) h None)) in *.
    assert (Hh : h < next m) by (eapply rep_live_next; [eassumption|congruence]).
    assert (Pm : Permutation (entries m) ((a, d) :: entries m1)).
    { apply flat_upd_none; [apply seq_NoDup|apply in_seq; cbn; lia|assumption]. }
    destruct (IH s1 m1 R1) as [s2 [l [E2 [P2 [N2 M2]]]]].
    { apply Permutation_length in Pm. cbn [List.length] in Pm. rewrite !entries_size in Pm. lia. }
    exists s2, ((a, d) :: l). cbn [repeat hexec hstep]. rewrite E. cbn [bind]. rewrite E2. cbn [bind map fst snd].
    split; [reflexivity|]. split; [rewrite Pm; constructor; assumption|]. split; [|assumption].
    constructor; [|assumption]. intros e' He'. cbn.
    apply (Permutation_in _ (Permutation_sym P2)) in He'. apply entries_inv in He'.
    destruct He' as [h' Eh']. destruct e' as [a' d']. cbn. apply (Hmin h' a' d'). unfold m1 in Eh'. cbn in Eh'.
    destruct (Nat.eq_dec h' h) as [->|Nh]; [rewrite upd_same in Eh'; discriminate|].
    now rewrite upd_other in Eh'.
Qed.

(** [push] overruns the arrays exactly when the contract is broken *)
Lemma push_overflow cap s (m : bag D) a d :
  rep D ltb cap s m -> ~ allowed cap m (OPush a d) -> is_ub (push ltb s a d).
Proof.
  intros [[H [K [A [W [F [O [L1 L2]]]]]]] RC RN RS] Na. cbn in Na.
  pose proof (wf_ll _ _ _ _ _ W) as Wll. pose proof (wf_hl _ _ _ _ _ W) as Whl.
  pose proof (wf_lh _ _ _ _ _ W) as Wlh. pose proof (wf_la _ _ _ _ _ W) as Wla.
  unfold push. destruct (Nat.eqb_spec (hlen s) (hmax s)) as [C|C]; [exfalso; apply Na; right; lia|].
  rewrite wr_ok by lia. cbn [bind]. unfold wr.
  destruct (Nat.ltb_spec (llen s) (blen (addr s))) as [C'|C']; [exfalso; apply Na; left; lia|].
  cbn. eexists. reflexivity.
Qed.

(** ** What the self test decides *)
(** arrays allocated and initialised where the test reads them *)
Definition readable (s : heap D) (H : nat -> nat) (K : nat -> D) (B : nat -> nat) : Prop :=
  hlen s <= blen (hp s) /\
  forall i, i < hlen s -> bdat (hp s) i = Some (H i) /\
     H i < blen (dist s) /\ bdat (dist s) (H i) = Some (K (H i)) /\
     H i < blen (bp s) /\ bdat (bp s) (H i) = Some (B (H i)).

Lemma for_loop_unit_inv n : forall lo (f : nat -> unit -> res unit),
  for_loop n lo f tt = Ok tt -> forall i, lo <= i < lo + n -> f i tt = Ok tt.
Proof. induction n as [|n IH]; intros lo f E i Hi; [lia|]. cbn [for_loop] in E.
  apply bind_ok in E. destruct E as [[] [E1 E2]].
  destruct (Nat.eq_dec i lo) as [->|N]; [assumption|]. apply (IH (S lo)); [assumption|lia]. Qed.

Lemma htest_exact s H K B : readable s H K B ->
  (htest ltb s = Ok tt <->
   (forall c, 0 < c < hlen s - 1 -> ltb (K (H c)) (K (H ((c - 1) / 2))) = false) /\
   (forall i, i < hlen s -> B (H i) = i)).
Proof.
  intros [Lh R].
  assert (Rh : forall i, i < hlen s -> rd (hp s) i = Ok (H i)).
  { intros i Hi. apply rd_ok; [lia|apply R; assumption]. }
  assert (Rd : forall i, i < hlen s -> rd (dist s) (H i) = Ok (K (H i))).
  { intros i Hi. apply rd_ok; apply R; assumption. }
  assert (Rb : forall i, i < hlen s -> rd (bp s) (H i) = Ok (B (H i))).
  { intros i Hi. apply rd_ok; apply R; assumption. }
  assert (Ch : forall i c, i < hlen s -> 0 < c ->
     (htest_child ltb s i c = Ok tt <-> (c < hlen s - 1 -> ltb (K (H c)) (K (H i)) = false))).
  { intros i c Hi Hc. unfold htest_child. destruct (Nat.ltb_spec c (hlen s - 1)) as [L|L].
    - rewrite Rh by lia. cbn [bind]. rewrite Rd by lia. cbn [bind]. rewrite Rh by lia. cbn [bind].
      rewrite Rd by lia. cbn [bind]. destruct (ltb (K (H c)) (K (H i))).
      + split; [discriminate|]. intros X. discriminate (X L).
      + split; auto.
    - split; auto. intros _ X. lia. }
  unfold htest. split.
  - intros E. apply bind_ok in E. destruct E as [[] [E1 E2]]. split.
    + intros c Hc. pose proof (par_lt c ltac:(lia)) as Hp. unfold par in Hp.
      pose proof (for_loop_unit_inv _ _ _ E1 ((c-1)/2) ltac:(lia)) as E3.
      cbn beta in E3. apply bind_ok in E3. destruct E3 as [[] [E4 E5]].
      destruct (par_spec c) as [Ec|Ec]; [lia| |]; unfold par in Ec.
      * rewrite <- Ec in E4. apply (Ch ((c-1)/2) c) in E4; lia || (apply E4; lia).
      * replace (2 * ((c-1)/2) + 1 + 1) with c in E5 by lia. apply (Ch ((c-1)/2) c) in E5; lia || (apply E5; lia).
    + intros i Hi. pose proof (for_loop_unit_inv _ _ _ E2 i ltac:(lia)) as E3. cbn beta in E3.
      rewrite Rh in E3 by lia. cbn [bind] in E3. rewrite Rb in E3 by lia. cbn [bind] in E3.
      destruct (Nat.eqb_spec (B (H i)) i); [assumption|discriminate].
  - intros [O Bk]. rewrite for_loop_unit.
    + cbn [bind]. apply for_loop_unit. intros i Hi. rewrite Rh by lia. cbn [bind]. rewrite Rb by lia. cbn [bind].
      rewrite Bk by lia. now rewrite Nat.eqb_refl.
    + intros i Hi. rewrite (proj2 (Ch i (2*i+1) ltac:(lia) ltac:(lia))).
      * cbn [bind]. apply Ch; [lia|lia|]. intros L. pose proof (par_right i) as P. unfold par in P.
        rewrite <- P at 2. apply O. lia.
      * intros L. pose proof (par_left i) as P. unfold par in P. rewrite <- P at 2. apply O. lia.
Qed.

Lemma refines_new cap ops :
  exists k outs s' m',
    hexec ltb (heap_new cap) (firstn k ops) = Ok (s', outs) /\
    bag_run ltb cap bag_empty (firstn k ops) outs m' /\
    (k = List.length ops \/ exists o, nth_error ops k = Some o /\ ~ allowed cap m' o).
Proof.
  destruct (exec_refines_from D ltb ltb_irrefl ltb_trans ltb_total cap ops (heap_new cap) bag_empty) as
    [k [outs [s' [m' [E [B [R Q]]]]]]].
  { apply rep_init. exact d0. }
  exists k, outs, s', m'. auto.
Qed.

Lemma refines_drain cap ops :
  exists k outs s' m',
    hexec ltb (heap_new cap) (firstn k ops) = Ok (s', outs) /\
    bag_run ltb cap bag_empty (firstn k ops) outs m' /\
    (k = List.length ops \/ exists o, nth_error ops k = Some o /\ ~ allowed cap m' o) /\
    exists s'' l,
      hexec ltb s' (repeat OPop (size m')) = Ok (s'', map (fun e => RPopped (fst e) (snd e)) l) /\
      Permutation (entries m') l /\ nondecreasing ltb l /\ empty s'' = true.
Proof.
  destruct (exec_refines_from D ltb ltb_irrefl ltb_trans ltb_total cap ops (heap_new cap) bag_empty) as
    [k [outs [s' [m' [E [B [R Q]]]]]]].
  { apply rep_init. exact d0. }
  exists k, outs, s', m'. repeat (split; [assumption|]). eapply drain; eauto.
Qed.

Lemma reach_push_overflow cap ops a d :
  exists k outs s' m',
    hexec ltb (heap_new cap) (firstn k ops) = Ok (s', outs) /\
    bag_run ltb cap bag_empty (firstn k ops) outs m' /\
    (k = List.length ops \/ exists o, nth_error ops k = Some o /\ ~ allowed cap m' o) /\
    (is_ub (push ltb s' a d) <-> next m' >= cap /\ size m' <> cap) /\
    htest ltb s' = Ok tt.
Proof.
  destruct (exec_refines_from D ltb ltb_irrefl ltb_trans ltb_total cap ops (heap_new cap) bag_empty) as
    [k [outs [s' [m' [E [B [R Q]]]]]]].
  { apply rep_init. exact d0. }
  exists k, outs, s', m'. repeat (split; [assumption|]). split; [|eapply htest_sound; eauto].
  split.
  - intros [w U]. destruct (Nat.eq_dec (size m') cap) as [C|C].
    + rewrite (push_full D ltb cap s' m' a d R C) in U. discriminate.
    + split; [|assumption]. destruct (Nat.le_gt_cases cap (next m')); [assumption|].
      pose proof (size_le_next D m').
      destruct (push_ok D ltb ltb_irrefl ltb_trans ltb_total cap s' m' a d R) as [s2 [E2 _]]; try lia.
      rewrite E2 in U. discriminate.
  - intros [U1 U2]. apply (push_overflow cap s' m'); [assumption|]. cbn. lia.
Qed.
End HeapP2.
