(** Invariants of the heap model and refinement to the bag of [HeapSpec]. *)
From Verif Require Import Base HeapModel HeapSpec.

Definition par (i : nat) : nat := (i - 1) / 2.

Lemma par_lt i : 0 < i -> par i < i.
Proof. unfold par. intros. apply Nat.div_lt_upper_bound; lia. Qed.
Lemma par_le i : par i <= i.
Proof. destruct i; [cbn; lia|]. pose proof (par_lt (S i)). lia. Qed.
Lemma par_spec i : 0 < i -> i = 2 * par i + 1 \/ i = 2 * par i + 2.
Proof. unfold par. intros. pose proof (Nat.div_mod (i-1) 2). pose proof (Nat.mod_upper_bound (i-1) 2). lia. Qed.
Lemma par_left i : par (2*i+1) = i.
Proof. unfold par. replace (2*i+1-1) with (i*2) by lia. apply Nat.div_mul. lia. Qed.
Lemma par_right i : par (2*i+1+1) = i.
Proof. unfold par. replace (2*i+1+1-1) with (1+i*2) by lia. rewrite Nat.div_add; cbn; lia. Qed.
Lemma par_child i p : 0 < i -> par i = p -> i = 2*p+1 \/ i = 2*p+1+1.
Proof. intros H <-. pose proof (par_spec i H). lia. Qed.

Inductive anc (a : nat) : nat -> Prop :=
| anc_refl : anc a a
| anc_step i : 0 < i -> anc a (par i) -> anc a i.
Lemma anc_le a i : anc a i -> a <= i.
Proof. induction 1; [lia|]. pose proof (par_lt i). lia. Qed.
Lemma anc_par a i : anc a i -> i <> a -> anc a (par i).
Proof. destruct 1; [congruence|auto]. Qed.
Lemma anc_0 i : anc 0 i.
Proof. induction i as [i IH] using lt_wf_ind. destruct i; [constructor|].
  apply anc_step; [lia|]. apply IH. apply par_lt. lia. Qed.

Tactic Notation "cb" :=
  repeat match goal with x := mkheap _ _ _ _ _ _ _ |- _ => progress unfold x end;
  cbn [blen bdat hmax llen hlen dist hp addr bp next live List.length Nat.add].
Tactic Notation "cb" "in" hyp(H) :=
  repeat match goal with x := mkheap _ _ _ _ _ _ _ |- _ => progress unfold x in H end;
  cbn [blen bdat hmax llen hlen dist hp addr bp next live List.length Nat.add] in H.

Section HeapP.
Variable D : Type.
Variable ltb : D -> D -> bool.
(** the order is over an inhabited type *)
Variable d0 : D.
Hypothesis ltb_irrefl : forall a, ltb a a = false.
Hypothesis ltb_trans : forall a b c, ltb a b = true -> ltb b c = true -> ltb a c = true.
Hypothesis ltb_total : forall a b, ltb a b = false -> ltb b a = false -> a = b.

Definition le (a b : D) : Prop := ltb b a = false.

Lemma le_refl a : le a a. Proof. apply ltb_irrefl. Qed.
Lemma lt_le a b : ltb a b = true -> le a b.
Proof. intros H. unfold le. destruct (ltb b a) eqn:E; [|reflexivity].
  pose proof (ltb_trans _ _ _ H E). rewrite ltb_irrefl in *. discriminate. Qed.
Lemma le_trans a b c : le a b -> le b c -> le a c.
Proof. unfold le. intros H1 H2. destruct (ltb c a) eqn:E; [|reflexivity].
  destruct (ltb a b) eqn:E2.
  - rewrite (ltb_trans _ _ _ E E2) in H2. discriminate.
  - assert (a = b) by (apply ltb_total; assumption). subst. congruence. Qed.

Definition swap (H : nat -> nat) (i j : nat) : nat -> nat :=
  fun k => if Nat.eqb k i then H j else if Nat.eqb k j then H i else H k.

Lemma swap_l H i j : swap H i j i = H j.
Proof. unfold swap. now rewrite Nat.eqb_refl. Qed.
Lemma swap_r H i j : swap H i j j = H i.
Proof. unfold swap. destruct (Nat.eqb_spec j i); [subst; auto|]. now rewrite Nat.eqb_refl. Qed.
Lemma swap_o H i j k : k <> i -> k <> j -> swap H i j k = H k.
Proof. unfold swap. intros. destruct (Nat.eqb_spec k i), (Nat.eqb_spec k j); congruence. Qed.

Definition inj (n : nat) (H : nat -> nat) := forall i j, i < n -> j < n -> H i = H j -> i = j.
Definition sameset (n : nat) (H H' : nat -> nat) :=
  forall h, (exists i, i < n /\ H i = h) <-> (exists i, i < n /\ H' i = h).

Lemma sameset_refl n H : sameset n H H. Proof. intros h. tauto. Qed.
Lemma sameset_trans n H1 H2 H3 : sameset n H1 H2 -> sameset n H2 H3 -> sameset n H1 H3.
Proof. intros A B h. rewrite (A h). apply B. Qed.

Lemma swap_sameset n H i j : i < n -> j < n -> sameset n H (swap H i j).
Proof.
  intros Hi Hj h. split; intros [k [Hk E]].
  - destruct (Nat.eq_dec k i) as [->|Ni]; [exists j; rewrite swap_r; auto|].
    destruct (Nat.eq_dec k j) as [->|Nj]; [exists i; rewrite swap_l; auto|].
    exists k. rewrite swap_o; auto.
  - destruct (Nat.eq_dec k i) as [->|Ni]; [rewrite swap_l in E; exists j; auto|].
    destruct (Nat.eq_dec k j) as [->|Nj]; [rewrite swap_r in E; exists i; auto|].
    rewrite swap_o in E by auto. exists k; auto.
Qed.
Lemma swap_inj n H i j : i < n -> j < n -> inj n H -> inj n (swap H i j).
Proof.
  intros Hi Hj I a b Ha Hb E. unfold swap in E.
  destruct (Nat.eqb_spec a i), (Nat.eqb_spec a j), (Nat.eqb_spec b i), (Nat.eqb_spec b j);
    apply I in E; subst; auto; congruence.
Qed.

(** heap array [h] and back pointers [b] represent [H] on positions < n, except that
    the contents at [pos] are arbitrary (the "hole"). *)
Definition hole (n : nat) (H : nat -> nat) (pos : nat) (h b : buf nat) : Prop :=
  inj n H /\ forall i, i < n -> i <> pos -> bdat h i = Some (H i) /\ bdat b (H i) = Some i.

Definition keys_ok (d : buf D) (K : nat -> D) (n : nat) (H : nat -> nat) : Prop :=
  forall i, i < n -> H i < blen d /\ bdat d (H i) = Some (K (H i)).

Definition small (L n : nat) (H : nat -> nat) := forall i, i < n -> H i < L.

Lemma sameset_small L n H H' : sameset n H H' -> small L n H -> small L n H'.
Proof. intros S M i Hi. destruct (S (H' i)) as [_ B]. destruct B as [j [Hj E]]; [eauto|].
  rewrite <- E. auto. Qed.
Lemma sameset_keys d K n H H' : sameset n H H' -> keys_ok d K n H -> keys_ok d K n H'.
Proof. intros S M i Hi. destruct (S (H' i)) as [_ B]. destruct B as [j [Hj E]]; [eauto|].
  rewrite <- E. auto. Qed.

Definition ordered (K : nat -> D) (n : nat) (H : nat -> nat) : Prop :=
  forall i, 0 < i < n -> le (K (H (par i))) (K (H i)).

(** precondition of sift-down from [pos] with lower bound [start] *)
Definition sd_pre (K : nat -> D) (n start pos : nat) (H : nat -> nat) : Prop :=
  (forall i, 0 < i < n -> i <> pos -> le (K (H (par i))) (K (H i))) /\
  (forall i, 0 < i < n -> par i = pos -> 0 < pos -> le (K (H (par pos))) (K (H i))) /\
  anc start pos /\
  (0 < start -> le (K (H (par start))) (K (H pos))).

Lemma siftDown_loop_spec K d n start fuel : forall H pos h b,
  pos <= fuel -> pos < n -> n <= blen h -> small (blen b) n H ->
  keys_ok d K n H -> hole n H pos h b -> sd_pre K n start pos H ->
  exists H' pos' h' b',
    siftDown_loop ltb fuel d start (H pos) pos h b = Ok (pos', h', b') /\
    blen h' = blen h /\ blen b' = blen b /\ pos' < n /\
    H' pos' = H pos /\ hole n H' pos' h' b' /\ sameset n H H' /\ ordered K n H'.
Proof.
  induction fuel as [|fuel IH]; intros H pos h b Hf Hp Hn Hs HK Hh Hpre.
  - assert (pos = 0) by lia. subst pos. cbn [siftDown_loop].
    rewrite (proj2 (Nat.ltb_ge start 0)) by lia.
    exists H, 0, h, b. repeat split; auto using sameset_refl; try apply Hh; auto.
    intros i Hi. destruct Hpre as [P1 _]. apply P1; lia.
  - cbn [siftDown_loop]. destruct Hpre as [P1 [P2 [P3 P4]]].
    destruct (Nat.ltb_spec start pos) as [Hlt|Hge].
    + fold (par pos). remember (par pos) as p eqn:Edp.
      assert (Hpp : p < pos) by (rewrite Edp; apply par_lt; lia).
      destruct Hh as [Hinj Hh].
      destruct (Hh p) as [E1 E2]; [lia|lia|].
      rewrite (rd_ok h p (H p)) by (lia || assumption). cbn [bind].
      destruct (HK pos) as [L1 K1]; [lia|]. destruct (HK p) as [L2 K2]; [lia|].
      rewrite (rd_ok d (H pos) (K (H pos))) by assumption. cbn [bind].
      rewrite (rd_ok d (H p) (K (H p))) by assumption. cbn [bind].
      destruct (ltb (K (H pos)) (K (H p))) eqn:Ec.
      * rewrite (wr_ok h pos) by lia. cbn [bind].
        rewrite (wr_ok b (H p)) by (apply Hs; lia). cbn [bind].
        set (H1 := swap H pos p).
        assert (Hit : H1 p = H pos) by (apply swap_r).
        destruct (IH H1 p (mkbuf (blen h) (upd (bdat h) pos (Some (H p))))
                          (mkbuf (blen b) (upd (bdat b) (H p) (Some pos))))
          as [H' [pos' [h' [b' [E [B1 [B2 [B3 [B4 [B5 [B6 B7]]]]]]]]]]].
        -- lia.
        -- lia.
        -- cb. lia.
        -- cb. apply (sameset_small _ n H); [apply swap_sameset; lia|assumption].
        -- apply (sameset_keys _ _ n H); [apply swap_sameset; lia|assumption].
        -- split; [apply swap_inj; auto; lia|]. intros i Hi Np. cb.
           destruct (Nat.eq_dec i pos) as [->|Npos].
           ++ unfold H1. rewrite swap_l. rewrite !upd_same. auto.
           ++ unfold H1. rewrite swap_o by auto. rewrite upd_other by auto.
              destruct (Hh i Hi Npos) as [F1 F2]. split; [assumption|].
              rewrite upd_other; [assumption|]. intros C. apply Hinj in C; lia.
        -- (* sd_pre after the swap *)
           assert (Kp : le (K (H pos)) (K (H p))) by (apply lt_le; assumption).
           split; [|split; [|split]].
           ++ intros i Hi Np. destruct (Nat.eq_dec i pos) as [->|Npos].
              ** rewrite <- Edp. unfold H1. rewrite swap_r, swap_l. exact Kp.
              ** destruct (Nat.eq_dec (par i) pos) as [Ep|Nep].
                 --- rewrite Ep. unfold H1 at 1. rewrite swap_l. unfold H1. rewrite swap_o by auto.
                     apply P2; auto. lia.
                 --- destruct (Nat.eq_dec (par i) p) as [Eq|Neq].
                     +++ rewrite Eq. unfold H1 at 1. rewrite swap_r. unfold H1. rewrite swap_o by auto.
                         apply (le_trans _ (K (H p))); [exact Kp|]. rewrite <- Eq. apply P1; auto.
                     +++ unfold H1. rewrite !swap_o by auto. apply P1; auto.
           ++ intros i Hi Ep Hp0.
              assert (le (K (H (par p))) (K (H p))) by (apply P1; lia).
              assert (par p < p) by (apply par_lt; lia).
              unfold H1 at 1. rewrite swap_o by lia.
              destruct (Nat.eq_dec i pos) as [->|Npos].
              ** unfold H1. rewrite swap_l. assumption.
              ** assert (par i < i) by (apply par_lt; lia). unfold H1. rewrite swap_o by lia.
                 apply (le_trans _ (K (H p))); [assumption|]. rewrite <- Ep. apply P1; auto.
           ++ rewrite Edp; apply anc_par; [assumption|lia].
           ++ intros Hst. rewrite Hit.
              assert (start <= p) by (rewrite Edp; apply anc_le, anc_par; [assumption|lia]).
              assert (par start < start) by (apply par_lt; lia).
              unfold H1. rewrite swap_o by lia. apply P4; lia.
        -- rewrite <- Hit. rewrite E. exists H', pos', h', b'.
           split; [reflexivity|]. cb in B1; cb in B2.
           repeat (split; [assumption|]).
           split; [apply (sameset_trans _ _ H1); [apply swap_sameset; lia|assumption]|].
           assumption.
      * exists H, pos, h, b. split; [reflexivity|]. repeat (split; [reflexivity || assumption|]).
        split; [split; assumption|]. split; [apply sameset_refl|].
        intros i Hi. destruct (Nat.eq_dec i pos) as [->|Np]; [rewrite <- Edp; exact Ec|apply P1; auto].
    + exists H, pos, h, b. split; [reflexivity|]. repeat (split; [reflexivity || assumption|]).
      split; [apply sameset_refl|].
      intros i Hi. destruct (Nat.eq_dec i pos) as [->|Np]; [|apply P1; auto].
      assert (pos = start) by (apply anc_le in P3; lia). subst start. apply P4. lia.
Qed.

(** ** Whole-object well-formedness *)
Record wf (s : heap D) (H : nat -> nat) (K : nat -> D) (A : nat -> nat) : Prop := {
  wf_ld : blen (dist s) = hmax s; wf_lh : blen (hp s) = hmax s;
  wf_la : blen (addr s) = hmax s; wf_lb : blen (bp s) = hmax s;
  wf_hl : hlen s <= llen s; wf_ll : llen s <= hmax s;
  wf_d : forall h, h < llen s -> bdat (dist s) h = Some (K h);
  wf_a : forall h, h < llen s -> bdat (addr s) h = Some (A h);
  wf_small : small (llen s) (hlen s) H;
  wf_inj : inj (hlen s) H
}.
Definition full (s : heap D) (H : nat -> nat) : Prop :=
  forall i, i < hlen s -> bdat (hp s) i = Some (H i) /\ bdat (bp s) (H i) = Some i.

Lemma wf_sameset s H K A H' h b :
  wf s H K A -> sameset (hlen s) H H' -> inj (hlen s) H' -> blen h = hmax s -> blen b = hmax s ->
  wf (mkheap (hmax s) (llen s) (hlen s) (dist s) h (addr s) b) H' K A.
Proof. intros [] S I Eh Eb. constructor; cb; auto. eapply sameset_small; eauto. Qed.

Lemma wf_keys s H K A : wf s H K A -> keys_ok (dist s) K (hlen s) H.
Proof. intros W i Hi. pose proof (wf_small _ _ _ _ W i Hi). destruct W. split; [lia|auto]. Qed.

Lemma siftDown_spec s H K A start pos :
  wf s H K A -> pos < hlen s ->
  hole (hlen s) H pos (hp s) (bp s) -> bdat (hp s) pos = Some (H pos) ->
  sd_pre K (hlen s) start pos H ->
  exists s' H', siftDown ltb s start pos = Ok s' /\
    wf s' H' K A /\ full s' H' /\ ordered K (hlen s) H' /\ sameset (hlen s) H H' /\
    hlen s' = hlen s /\ llen s' = llen s /\ hmax s' = hmax s /\ dist s' = dist s /\ addr s' = addr s.
Proof.
  intros W Hp Hh Hpos Hpre. unfold siftDown.
  rewrite (rd_ok (hp s) pos (H pos)); [|destruct W; lia|assumption]. cbn [bind].
  destruct (siftDown_loop_spec K (dist s) (hlen s) start pos H pos (hp s) (bp s))
    as [H' [pos' [h' [b' [E [B1 [B2 [B3 [B4 [B5 [B6 B7]]]]]]]]]]]; auto.
  - destruct W; lia.
  - intros i Hi. pose proof (wf_small _ _ _ _ W i Hi). destruct W; lia.
  - eapply wf_keys; eauto.
  - rewrite E. cbn [bind].
    rewrite (wr_ok h' pos') by (destruct W; lia). cbn [bind].
    assert (Hsm : H pos < llen s) by (apply (wf_small _ _ _ _ W); lia).
    rewrite (wr_ok b' (H pos)) by (destruct W; lia). cbn [bind].
    eexists _, H'. split; [reflexivity|]. cb.
    destruct B5 as [I5 F5].
    split; [apply (wf_sameset s H); cb; auto; destruct W; lia|].
    split; [|split; [assumption|split; [assumption|auto 10]]].
    intros i Hi. cb; cb in Hi. destruct (Nat.eq_dec i pos') as [->|Np].
    + rewrite B4. rewrite !upd_same. auto.
    + rewrite upd_other by auto. destruct (F5 i Hi Np) as [F1 F2]. split; [assumption|].
      rewrite upd_other; [assumption|]. rewrite <- B4. intros C. apply I5 in C; auto.
Qed.

(** precondition of sift-up (hole moving to a leaf) *)
Definition su_pre (K : nat -> D) (n pos : nat) (H : nat -> nat) : Prop :=
  (forall i, 0 < i < n -> i <> pos -> par i <> pos -> le (K (H (par i))) (K (H i))) /\
  (forall i, 0 < i < n -> par i = pos -> 0 < pos -> le (K (H (par pos))) (K (H i))).

Lemma siftUp_loop_spec K d n start fuel : forall H pos h b,
  n <= fuel + pos -> pos < n -> n <= blen h -> small (blen b) n H ->
  keys_ok d K n H -> hole n H pos h b -> su_pre K n pos H -> anc start pos ->
  (0 < start -> le (K (H (par start))) (K (H pos))) ->
  exists H' pos' h' b',
    siftUp_loop ltb fuel d n pos h b = Ok (pos', h', b') /\
    blen h' = blen h /\ blen b' = blen b /\ pos' < n /\
    H' pos' = H pos /\ hole n H' pos' h' b' /\ sameset n H H' /\ sd_pre K n start pos' H'.
Proof.
  induction fuel as [|fuel IH]; intros H pos h b Hf Hp Hn Hs HK Hh Hpre Ha Hst; [lia|].
  cbn [siftUp_loop]. replace (2 * pos + 1) with (2*pos+1) by lia.
  destruct Hpre as [P1 P2]. destruct Hh as [Hinj Hh].
  destruct (Nat.ltb_spec (2*pos+1) n) as [Hc|Hc].
  2:{ exists H, pos, h, b. split; [reflexivity|]. repeat (split; [reflexivity||assumption|]).
      split; [split; assumption|]. split; [apply sameset_refl|].
      split; [|split; [|split; assumption]].
      - intros i Hi Np. apply P1; auto. intros C. apply par_child in C; lia.
      - intros i Hi C. apply par_child in C; lia. }
  (* the chosen child *)
  assert (exists c, (c = 2*pos+1 \/ c = 2*pos+1+1) /\ c < n /\
     (if Nat.ltb (2*pos+1+1) n then
           hc <- rd h (2*pos+1) ;; dc <- rd d hc ;;
           hr <- rd h (2*pos+1+1) ;; dr <- rd d hr ;;
           Ok (if negb (ltb dc dr) then 2*pos+1+1 else 2*pos+1)
         else Ok (2*pos+1)) = Ok c /\
     forall i, 0 < i < n -> par i = pos -> le (K (H c)) (K (H i))) as [c [Hcc [Hcn [Ec Hmin]]]].
  { destruct (Nat.ltb_spec (2*pos+1+1) n) as [Hr|Hr].
    - destruct (Hh (2*pos+1)) as [F1 _]; [lia|lia|]. destruct (Hh (2*pos+1+1)) as [F2 _]; [lia|lia|].
      destruct (HK (2*pos+1)) as [L1 K1]; [lia|]. destruct (HK (2*pos+1+1)) as [L2 K2]; [lia|].
      rewrite (rd_ok h (2*pos+1) (H (2*pos+1))) by (lia || assumption). cbn [bind].
      rewrite (rd_ok d _ _ L1 K1). cbn [bind].
      rewrite (rd_ok h (2*pos+1+1) (H (2*pos+1+1))) by (lia || assumption). cbn [bind].
      rewrite (rd_ok d _ _ L2 K2). cbn [bind].
      destruct (ltb (K (H (2*pos+1))) (K (H (2*pos+1+1)))) eqn:El; cbn [negb].
      + exists (2*pos+1). repeat split; auto; try lia. intros i Hi Ep.
        apply par_child in Ep; [|lia]. destruct Ep as [->| ->]; [apply le_refl|apply lt_le; assumption].
      + exists (2*pos+1+1). repeat split; auto; try lia. intros i Hi Ep.
        apply par_child in Ep; [|lia]. destruct Ep as [->| ->]; [exact El|apply le_refl].
    - exists (2*pos+1). repeat split; auto. intros i Hi Ep.
      apply par_child in Ep; [|lia]. destruct Ep as [->| ->]; [apply le_refl|lia]. }
  rewrite Ec. cbn [bind].
  assert (Epc : par c = pos) by (destruct Hcc as [->| ->]; [apply par_left|apply par_right]).
  assert (Hpc : pos < c) by lia.
  destruct (Hh c) as [F1 F2]; [lia|lia|].
  rewrite (rd_ok h c (H c)) by (lia || assumption). cbn [bind].
  rewrite (wr_ok h pos) by lia. cbn [bind].
  rewrite (rd_ok _ c (H c)); [|cb; lia|cb; rewrite upd_other by lia; assumption]. cbn [bind].
  rewrite (wr_ok b (H c)) by (apply Hs; lia). cbn [bind].
  set (H1 := swap H pos c).
  assert (Hit : H1 c = H pos) by (apply swap_r).
  destruct (IH H1 c (mkbuf (blen h) (upd (bdat h) pos (Some (H c))))
                    (mkbuf (blen b) (upd (bdat b) (H c) (Some pos))))
    as [H' [pos' [h' [b' [E [B1 [B2 [B3 [B4 [B5 [B6 B7]]]]]]]]]]].
  - lia.
  - lia.
  - cb. lia.
  - cb. apply (sameset_small _ n H); [apply swap_sameset; lia|assumption].
  - apply (sameset_keys _ _ n H); [apply swap_sameset; lia|assumption].
  - split; [apply swap_inj; auto; lia|]. intros i Hi Np. cb.
    destruct (Nat.eq_dec i pos) as [->|Npos].
    + unfold H1. rewrite swap_l. rewrite !upd_same. auto.
    + unfold H1. rewrite swap_o by auto. rewrite upd_other by auto.
      destruct (Hh i Hi Npos) as [G1 G2]. split; [assumption|].
      rewrite upd_other; [assumption|]. intros C. apply Hinj in C; lia.
  - split.
    + intros i Hi Nc Npc. destruct (Nat.eq_dec i pos) as [->|Npos].
      * unfold H1 at 2. rewrite swap_l. assert (par pos < pos) by (apply par_lt; lia).
        unfold H1. rewrite swap_o by lia. apply P2; auto; lia.
      * destruct (Nat.eq_dec (par i) pos) as [Ep|Nep].
        -- rewrite Ep. unfold H1 at 1. rewrite swap_l. unfold H1. rewrite swap_o by auto. apply Hmin; auto.
        -- unfold H1. rewrite !swap_o by auto. apply P1; auto.
    + intros i Hi Ep Hc0. rewrite Epc. unfold H1 at 1. rewrite swap_l.
      assert (par i < i) by (apply par_lt; lia).
      unfold H1. rewrite swap_o by lia. rewrite <- Ep at 1. apply P1; auto; lia.
  - apply anc_step; [lia|]. now rewrite Epc.
  - intros H0. rewrite Hit. assert (start <= pos) by (apply anc_le; assumption).
    assert (par start < start) by (apply par_lt; lia). unfold H1. rewrite swap_o by lia. auto.
  - rewrite E. exists H', pos', h', b'. split; [reflexivity|]. cb in B1; cb in B2.
    repeat (split; [assumption|]). split; [congruence|]. split; [assumption|].
    split; [apply (sameset_trans _ _ H1); [apply swap_sameset; lia|assumption]|assumption].
Qed.

Lemma siftUp_spec s H K A pos :
  wf s H K A -> pos < hlen s ->
  hole (hlen s) H pos (hp s) (bp s) -> bdat (hp s) pos = Some (H pos) ->
  su_pre K (hlen s) pos H -> (0 < pos -> le (K (H (par pos))) (K (H pos))) ->
  exists s' H', siftUp ltb s pos = Ok s' /\
    wf s' H' K A /\ full s' H' /\ ordered K (hlen s) H' /\ sameset (hlen s) H H' /\
    hlen s' = hlen s /\ llen s' = llen s /\ hmax s' = hmax s /\ dist s' = dist s /\ addr s' = addr s.
Proof.
  intros W Hp Hh Hpos Hpre Hup. unfold siftUp.
  rewrite (rd_ok (hp s) pos (H pos)); [|destruct W; lia|assumption]. cbn [bind].
  destruct (siftUp_loop_spec K (dist s) (hlen s) pos (hlen s) H pos (hp s) (bp s))
    as [H' [pos' [h' [b' [E [B1 [B2 [B3 [B4 [B5 [B6 B7]]]]]]]]]]]; auto using anc_refl.
  - lia.
  - destruct W; lia.
  - intros i Hi. pose proof (wf_small _ _ _ _ W i Hi). destruct W; lia.
  - eapply wf_keys; eauto.
  - rewrite E. cbn [bind]. rewrite (wr_ok h' pos') by (destruct W; lia). cbn [bind].
    destruct B5 as [I5 F5].
    set (s1 := mkheap _ _ _ _ _ _ _).
    destruct (siftDown_spec s1 H' K A pos pos') as [s' [H'' [E' [W' [Fu [O' [S' R']]]]]]].
    + apply wf_sameset with (H := H); auto; cb; destruct W; lia.
    + exact B3.
    + split; [exact I5|]. intros i Hi Np. cb; cb in Hi. rewrite upd_other by auto. apply F5; auto.
    + cb. rewrite upd_same. now rewrite B4.
    + exact B7.
    + exists s', H''. split; [exact E'|]. split; [assumption|]. split; [assumption|].
      split; [assumption|]. split; [eapply sameset_trans; eauto|exact R'].
Qed.

Lemma ordered_sd_pre K n H pos : ordered K n H -> pos < n -> sd_pre K n 0 pos H.
Proof.
  intros O Hp. split; [|split; [|split]].
  - intros i Hi _. apply O; auto.
  - intros i Hi E H0. apply (le_trans _ (K (H pos))); [apply O; lia|]. rewrite <- E. apply O; auto.
  - apply anc_0.
  - lia.
Qed.

Lemma ordered_ext K K' n H : ordered K n H -> (forall i, i < n -> K' (H i) = K (H i)) -> ordered K' n H.
Proof. intros O E i Hi. rewrite !E; [apply O; auto|lia|]. assert (par i < i) by (apply par_lt; lia). lia. Qed.

Lemma root_min K n H : ordered K n H -> forall i, i < n -> le (K (H 0)) (K (H i)).
Proof.
  intros O i. induction i as [i IH] using lt_wf_ind. intros Hi.
  destruct (Nat.eq_dec i 0) as [->|N]; [apply le_refl|].
  assert (par i < i) by (apply par_lt; lia).
  apply (le_trans _ (K (H (par i)))); [apply IH; lia|apply O; lia].
Qed.

(** ** Refinement *)
Record rep (cap : nat) (s : heap D) (m : bag D) : Prop := {
  rep_ex : exists H K A, wf s H K A /\ full s H /\ ordered K (hlen s) H /\
      (forall h, (exists i, i < hlen s /\ H i = h) -> live m h = Some (A h, K h)) /\
      (forall h, live m h <> None -> exists i, i < hlen s /\ H i = h);
  rep_cap : hmax s = cap;
  rep_next : next m = llen s;
  rep_size : size m = hlen s
}.

Definition somb {X} (o : option X) : bool := match o with Some _ => true | None => false end.
Lemma filter_upd_notin (f : nat -> option (nat*D)) h v l :
  ~ In h l -> filter (fun x => somb (upd f h v x)) l = filter (fun x => somb (f x)) l.
Proof. induction l as [|x l IH]; cbn; intros N; [reflexivity|].
  rewrite upd_other by (intros ->; apply N; auto). rewrite IH; auto. Qed.
Lemma count_upd_none (f : nat -> option (nat*D)) h l :
  NoDup l -> In h l -> f h <> None ->
  S (List.length (filter (fun x => somb (upd f h None x)) l)) = List.length (filter (fun x => somb (f x)) l).
Proof.
  induction l as [|x l IH]; cbn; intros ND Hin Hf; [tauto|].
  inversion ND as [|x' l' Nx ND']; subst. destruct Hin as [->|Hin].
  - rewrite upd_same. destruct (f h); [|congruence]. cbn. rewrite filter_upd_notin by assumption. reflexivity.
  - rewrite upd_other by (intros ->; contradiction).
    destruct (f x); cbn; rewrite <- (IH ND' Hin Hf); reflexivity.
Qed.
Lemma count_upd_some (f : nat -> option (nat*D)) h v l :
  f h <> None -> filter (fun x => somb (upd f h (Some v) x)) l = filter (fun x => somb (f x)) l.
Proof.
  intros Hf. induction l as [|x l IH]; cbn; [reflexivity|]. rewrite IH.
  destruct (Nat.eq_dec x h) as [->|N]; [rewrite upd_same; destruct (f h); [reflexivity|congruence]|].
  now rewrite upd_other.
Qed.
Lemma size_somb (m : bag D) : size m = List.length (filter (fun h => somb (live m h)) (seq 0 (next m))).
Proof. reflexivity. Qed.

Lemma rep_init cap : rep cap (heap_new cap) bag_empty.
Proof.
  constructor; cb; auto. exists (fun i => i), (fun _ => d0), (fun i => i).
  split; [constructor; cbn; auto; try lia; intros i Hi; lia|].
  split; [intros i Hi; cbn in Hi; lia|]. split; [intros i Hi; cbn in Hi; lia|].
  split; [intros h [i [Hi _]]; cbn in Hi; lia|]. intros h Hh. cbn in Hh. congruence.
Qed.

Lemma push_ok cap s m a d :
  rep cap s m -> size m < cap -> next m < cap ->
  exists s', push ltb s a d = Ok (s', next m) /\
    rep cap s' (mkbag (S (next m)) (upd (live m) (next m) (Some (a, d)))).
Proof.
  intros [[H [K [A [W [F [O [L1 L2]]]]]]] RC RN RS] Hsz Hnx.
  unfold push. destruct (Nat.eqb_spec (hlen s) (hmax s)) as [C|C]; [lia|].
  pose proof (wf_hl _ _ _ _ W) as Whl. pose proof (wf_ll _ _ _ _ W) as Wll.
  pose proof (wf_ld _ _ _ _ W) as Wld. pose proof (wf_lh _ _ _ _ W) as Wlh.
  pose proof (wf_la _ _ _ _ W) as Wla. pose proof (wf_lb _ _ _ _ W) as Wlb.
  rewrite (wr_ok (hp s)) by lia. cbn [bind]. rewrite (wr_ok (addr s)) by lia. cbn [bind].
  rewrite (wr_ok (dist s)) by lia. cbn [bind]. rewrite (wr_ok (bp s)) by lia. cbn [bind].
  cbn [hlen].
  set (s1 := mkheap _ _ _ _ _ _ _).
  set (H1 := upd H (hlen s) (llen s)). set (K1 := upd K (llen s) d). set (A1 := upd A (llen s) a).
  replace (S (hlen s) - 1) with (hlen s) by lia.
  assert (HH : forall i, i < hlen s -> H1 i = H i) by (intros; apply upd_other; lia).
  assert (HK : forall h, h < llen s -> K1 h = K h) by (intros; apply upd_other; lia).
  assert (HA : forall h, h < llen s -> A1 h = A h) by (intros; apply upd_other; lia).
  assert (HS : H1 (hlen s) = llen s) by apply upd_same.
  assert (W1 : wf s1 H1 K1 A1).
  { constructor; cb; try lia.
    - intros h Hh. destruct (Nat.eq_dec h (llen s)) as [->|N].
      + unfold K1. now rewrite !upd_same.
      + unfold K1. rewrite !upd_other by auto. apply (wf_d _ _ _ _ W). lia.
    - intros h Hh. destruct (Nat.eq_dec h (llen s)) as [->|N].
      + unfold A1. now rewrite !upd_same.
      + unfold A1. rewrite !upd_other by auto. apply (wf_a _ _ _ _ W). lia.
    - intros i Hi. destruct (Nat.eq_dec i (hlen s)) as [->|N]; [rewrite HS; lia|].
      rewrite HH by lia. pose proof (wf_small _ _ _ _ W i). lia.
    - intros i j Hi Hj E.
      destruct (Nat.eq_dec i (hlen s)) as [->|Ni], (Nat.eq_dec j (hlen s)) as [->|Nj]; auto.
      + rewrite HS, HH in E by lia. pose proof (wf_small _ _ _ _ W j). lia.
      + rewrite HS, HH in E by lia. pose proof (wf_small _ _ _ _ W i). lia.
      + rewrite !HH in E by lia. apply (wf_inj _ _ _ _ W); auto; lia. }
  destruct (siftDown_spec s1 H1 K1 A1 0 (hlen s)) as [s' [H' [E [W' [F' [O' [S' [R1 [R2 [R3 [R4 R5]]]]]]]]]]]; auto.
  - split; [apply (wf_inj _ _ _ _ W1)|]. intros i Hi N. cb; cb in Hi.
    rewrite HH by lia. rewrite upd_other by auto. destruct (F i) as [G1 G2]; [lia|].
    split; [assumption|]. rewrite upd_other; [assumption|]. pose proof (wf_small _ _ _ _ W i). lia.
  - cb. rewrite upd_same. now rewrite HS.
  - split; [|split; [|split]].
    + intros i Hi N. cb in Hi. assert (par i < i) by (apply par_lt; lia).
      rewrite !HH by lia. pose proof (wf_small _ _ _ _ W i). pose proof (wf_small _ _ _ _ W (par i)).
      rewrite !HK by lia. apply O. lia.
    + intros i Hi E. cb in Hi. apply par_child in E; lia.
    + apply anc_0.
    + lia.
  - rewrite E. cbn [bind]. exists s'. rewrite R2. cb. rewrite RN. replace (S (llen s) - 1) with (llen s) by lia. split; [reflexivity|].
    constructor; cb; [|cb in R3; congruence|cb in R2; congruence|].
    + exists H', K1, A1. split; [assumption|]. split; [assumption|]. rewrite R1. split; [assumption|].
      cb in S'; cb in R1; cb. split.
      * intros h Hex. apply S' in Hex. destruct Hex as [i [Hi E']].
        destruct (Nat.eq_dec i (hlen s)) as [->|N].
        -- rewrite HS in E'. subst h. unfold A1, K1. now rewrite !upd_same.
        -- rewrite HH in E' by lia. subst h. pose proof (wf_small _ _ _ _ W i).
           rewrite upd_other by lia. rewrite HK, HA by lia. apply L1. exists i. split; [lia|auto].
      * intros h Hl. apply S'. destruct (Nat.eq_dec h (llen s)) as [->|N].
        -- exists (hlen s). split; [lia|auto].
        -- rewrite upd_other in Hl by auto. destruct (L2 h Hl) as [i [Hi E']].
           exists i. split; [lia|]. now rewrite HH.
    + rewrite size_somb. cbn [next live]. rewrite seq_S, filter_app, app_length. cbn [filter Nat.add].
      rewrite filter_upd_notin; [|rewrite in_seq; lia].
      rewrite upd_same. cbn [somb List.length]. rewrite <- RN, <- (size_somb m). rewrite R1. cb. lia.
Qed.

Lemma push_full cap s m a d : rep cap s m -> size m = cap ->
  push ltb s a d = Throw "heap push error: heap full".
Proof. intros R Hsz. unfold push. destruct (Nat.eqb_spec (hlen s) (hmax s)) as [C|C]; [reflexivity|].
  destruct R. lia. Qed.

Lemma set_ok cap s m h a d0' d :
  rep cap s m -> live m h = Some (a, d0') ->
  exists s', set ltb s h d = Ok s' /\ rep cap s' (mkbag (next m) (upd (live m) h (Some (a, d)))).
Proof.
  intros [[H [K [A [W [F [O [L1 L2]]]]]]] RC RN RS] Hl.
  destruct (L2 h) as [pos [Hpos EH]]; [congruence|].
  pose proof (wf_hl _ _ _ _ W) as Whl. pose proof (wf_ll _ _ _ _ W) as Wll.
  pose proof (wf_ld _ _ _ _ W) as Wld. pose proof (wf_lh _ _ _ _ W) as Wlh. pose proof (wf_lb _ _ _ _ W) as Wlb.
  assert (Hh : h < llen s) by (subst h; apply (wf_small _ _ _ _ W); lia).
  assert (Hlv : live m h = Some (A h, K h)) by (apply L1; eauto).
  rewrite Hl in Hlv. injection Hlv as -> ->.
  destruct (F pos Hpos) as [F1 F2]. rewrite EH in F1, F2.
  unfold set. rewrite (rd_ok (dist s) h (K h)); [|lia|apply (wf_d _ _ _ _ W); lia]. cbn [bind].
  rewrite (rd_ok (bp s) h pos) by (lia || assumption). cbn [bind].
  rewrite (wr_ok (dist s)) by lia. cbn [bind].
  set (s1 := mkheap _ _ _ _ _ _ _). set (K1 := upd K h d).
  assert (KS : K1 (H pos) = d) by (rewrite EH; apply upd_same).
  assert (KO : forall i, i < hlen s -> i <> pos -> K1 (H i) = K (H i)).
  { intros i Hi N. apply upd_other. rewrite <- EH. intros C. apply (wf_inj _ _ _ _ W) in C; auto. }
  assert (W1 : wf s1 H K1 A).
  { destruct W. constructor; cb; auto. intros x Hx. unfold K1.
    destruct (Nat.eq_dec x h) as [->|N]; [now rewrite !upd_same|]. rewrite !upd_other by auto. auto. }
  assert (Fin : forall s' H', wf s' H' K1 A -> full s' H' -> ordered K1 (hlen s) H' -> sameset (hlen s) H H' ->
     hlen s' = hlen s -> llen s' = llen s -> hmax s' = hmax s ->
     rep cap s' (mkbag (next m) (upd (live m) h (Some (A h, d))))).
  { intros s' H' W' F' O' S' R1 R2 R3. constructor; cb; try congruence.
    - exists H', K1, A. split; [assumption|]. split; [assumption|]. rewrite R1. split; [assumption|]. split.
      + intros x Hx. apply S' in Hx. destruct (Nat.eq_dec x h) as [->|N].
        * rewrite upd_same. unfold K1. now rewrite upd_same.
        * rewrite upd_other by auto. unfold K1. rewrite upd_other by auto. auto.
      + intros x Hx. apply S'. destruct (Nat.eq_dec x h) as [->|N]; [eauto|].
        rewrite upd_other in Hx by auto. auto.
    - rewrite size_somb. cb. rewrite count_upd_some by congruence. rewrite <- (size_somb m). congruence. }
  assert (Hole1 : hole (hlen s) H pos (hp s) (bp s)).
  { split; [apply (wf_inj _ _ _ _ W)|]. intros i Hi _. apply F; auto. }
  assert (Fs1 : bdat (hp s1) pos = Some (H pos)) by (cb; now rewrite EH).
  destruct (ltb (K h) d) eqn:Elt.
  - destruct (siftUp_spec s1 H K1 A pos) as [s' [H' [E [W' [F' [O' [S' [R1 [R2 [R3 [R4 R5]]]]]]]]]]]; auto.
    + split.
      * intros i Hi N1 N2. cb in Hi. assert (par i < i) by (apply par_lt; lia). rewrite !KO by lia. apply O; auto.
      * intros i Hi Ep H0'. cb in Hi. assert (par i < i) by (apply par_lt; lia).
        assert (par pos < pos) by (apply par_lt; lia). rewrite !KO by lia.
        apply (le_trans _ (K (H pos))); [apply O; lia|]. rewrite <- Ep. apply O; auto.
    + intros Hp0. assert (par pos < pos) by (apply par_lt; lia). rewrite KS, KO by lia.
      apply (le_trans _ (K (H pos))); [apply O; lia|]. rewrite EH. apply lt_le. assumption.
    + rewrite E. cbn [bind]. cb in O'; cb in S'; cb in R1.
      destruct (F' pos) as [G1 G2]; [lia|].
      rewrite (rd_ok (hp s') pos (H' pos)); [|pose proof (wf_lh _ _ _ _ W') as W'lh; cb in R3; lia|assumption]. cbn [bind].
      assert (Hsm' : H' pos < llen s') by (apply (wf_small _ _ _ _ W'); lia).
      rewrite (rd_ok (dist s') (H' pos) (K1 (H' pos))); cycle 1.
      { pose proof (wf_ld _ _ _ _ W') as W'ld. pose proof (wf_ll _ _ _ _ W') as W'll. lia. }
      { apply (wf_d _ _ _ _ W'). lia. }
      cbn [bind].
      destruct (ltb (K1 (H' pos)) d || ltb d (K1 (H' pos)))%bool.
      * exists s'. split; [reflexivity|]. apply (Fin s' H'); auto.
      * destruct (siftDown_spec s' H' K1 A 0 pos) as [s'' [H'' [E2 [W2 [F2' [O2 [S2 [Q1 [Q2 [Q3 [Q4 Q5]]]]]]]]]]]; auto.
        -- lia.
        -- split; [apply (wf_inj _ _ _ _ W')|]. intros i Hi _. apply F'; auto.
        -- apply ordered_sd_pre; [rewrite R1; assumption|lia].
        -- exists s''. split; [exact E2|]. rewrite R1 in O2, S2, Q1. cb in R2; cb in R3.
           apply (Fin s'' H''); auto; try congruence. eapply sameset_trans; eauto.
  - cbn [bind]. rewrite (rd_ok (hp s1) pos (H pos)); [|cb; lia|assumption]. cbn [bind].
    rewrite (rd_ok (dist s1) (H pos) d); [|cb; rewrite EH; lia|cb; rewrite EH; now rewrite upd_same]. cbn [bind].
    rewrite ltb_irrefl. cbn [orb].
    assert (Hle : le d (K (H pos))) by (rewrite EH; exact Elt).
    destruct (siftDown_spec s1 H K1 A 0 pos) as [s' [H' [E [W' [F' [O' [S' [R1 [R2 [R3 [R4 R5]]]]]]]]]]]; auto.
    + split; [|split; [|split]].
      * intros i Hi N. cb in Hi. assert (par i < i) by (apply par_lt; lia). rewrite (KO i) by lia.
        destruct (Nat.eq_dec (par i) pos) as [Ep|Np].
        -- rewrite Ep, KS. apply (le_trans _ (K (H pos))); [assumption|]. rewrite <- Ep. apply O; auto.
        -- rewrite KO by lia. apply O; auto.
      * intros i Hi Ep H0'. cb in Hi. assert (par i < i) by (apply par_lt; lia).
        assert (par pos < pos) by (apply par_lt; lia). rewrite !KO by lia.
        apply (le_trans _ (K (H pos))); [apply O; lia|]. rewrite <- Ep. apply O; auto.
      * apply anc_0.
      * lia.
    + exists s'. split; [exact E|]. apply (Fin s' H'); auto.
Qed.

Lemma pop_ok cap s m : rep cap s m -> size m <> 0 ->
  exists s' h a d, pop ltb s = Ok (s', (a, d)) /\ live m h = Some (a, d) /\
    (forall h' a' d', live m h' = Some (a', d') -> ltb d' d = false) /\
    rep cap s' (mkbag (next m) (upd (live m) h None)).
Proof.
  intros [[H [K [A [W [F [O [L1 L2]]]]]]] RC RN RS] Hsz.
  pose proof (wf_hl _ _ _ _ W) as Whl. pose proof (wf_ll _ _ _ _ W) as Wll.
  pose proof (wf_ld _ _ _ _ W) as Wld. pose proof (wf_lh _ _ _ _ W) as Wlh.
  pose proof (wf_lb _ _ _ _ W) as Wlb. pose proof (wf_la _ _ _ _ W) as Wla.
  set (n := hlen s - 1).
  assert (Hn : hlen s = S n) by lia.
  unfold pop. destruct (Nat.eqb_spec (hlen s) 0) as [C|_]; [lia|].
  destruct (F 0) as [F1 F2]; [lia|]. destruct (F n) as [G1 G2]; [lia|].
  pose proof (wf_small _ _ _ _ W 0 ltac:(lia)) as S0. pose proof (wf_small _ _ _ _ W n ltac:(lia)) as Sn.
  rewrite (rd_ok (hp s) 0 (H 0)) by (lia || assumption). cbn [bind].
  rewrite (rd_ok (dist s) (H 0) (K (H 0))); [|lia|apply (wf_d _ _ _ _ W); lia]. cbn [bind].
  rewrite (rd_ok (addr s) (H 0) (A (H 0))); [|lia|apply (wf_a _ _ _ _ W); lia]. cbn [bind].
  fold n. rewrite (rd_ok (hp s) n (H n)) by (lia || assumption). cbn [bind].
  rewrite (wr_ok (hp s)) by lia. cbn [bind].
  rewrite (rd_ok _ 0 (H n)); [|cb; lia|cb; now rewrite upd_same]. cbn [bind].
  rewrite (wr_ok (bp s)) by lia. cbn [bind].
  set (s1 := mkheap _ _ _ _ _ _ _). set (H1 := upd H 0 (H n)).
  assert (H10 : H1 0 = H n) by apply upd_same.
  assert (HO : forall i, i <> 0 -> H1 i = H i) by (intros; now apply upd_other).
  assert (Hlive0 : live m (H 0) = Some (A (H 0), K (H 0))) by (apply L1; exists 0; split; [lia|auto]).
  assert (Fin : forall s' H', wf s' H' K A -> full s' H' -> ordered K n H' -> sameset n H1 H' ->
     hlen s' = n -> llen s' = llen s -> hmax s' = hmax s ->
     rep cap s' (mkbag (next m) (upd (live m) (H 0) None))).
  { intros s' H' W' F' O' S' R1 R2 R3. constructor; cb; try congruence.
    - exists H', K, A. split; [assumption|]. split; [assumption|]. rewrite R1. split; [assumption|]. split.
      + intros x Hx. apply S' in Hx. destruct Hx as [i [Hi E]].
        assert (exists j, j < hlen s /\ j <> 0 /\ H j = x) as [j [Hj [Nj Ej]]].
        { destruct (Nat.eq_dec i 0) as [->|N].
          - exists n. rewrite H10 in E. repeat split; auto; lia.
          - exists i. rewrite HO in E by auto. repeat split; auto; lia. }
        rewrite upd_other; [apply L1; eauto|]. rewrite <- Ej. intros C'. apply (wf_inj _ _ _ _ W) in C'; lia.
      + intros x Hx. apply S'. destruct (Nat.eq_dec x (H 0)) as [->|N]; [rewrite upd_same in Hx; congruence|].
        rewrite upd_other in Hx by auto. destruct (L2 x Hx) as [i [Hi E]].
        assert (i <> 0) by (intros ->; congruence).
        destruct (Nat.eq_dec i n) as [->|Nn].
        * exists 0. rewrite H10. split; [lia|auto].
        * exists i. rewrite HO by auto. split; [lia|auto].
    - assert (S (size (mkbag (next m) (upd (live m) (H 0) None))) = size m); [|lia].
      rewrite !size_somb. cb. apply count_upd_none.
      + apply seq_NoDup.
      + apply in_seq. lia.
      + congruence. }
  assert (W1 : wf s1 H1 K A).
  { destruct W. constructor; cb; auto; try lia.
    - intros i Hi. destruct (Nat.eq_dec i 0) as [->|N]; [rewrite H10; auto|rewrite HO by auto; apply wf_small0; lia].
    - intros i j Hi Hj E. destruct (Nat.eq_dec i 0) as [->|Ni], (Nat.eq_dec j 0) as [->|Nj]; auto.
      + rewrite H10, HO in E by auto. apply wf_inj0 in E; lia.
      + rewrite H10, HO in E by auto. apply wf_inj0 in E; lia.
      + rewrite !HO in E by auto. apply wf_inj0 in E; lia. }
  assert (exists s' H', siftUp ltb s1 0 = Ok s' /\ wf s' H' K A /\ full s' H' /\ ordered K n H' /\
            sameset n H1 H' /\ hlen s' = n /\ llen s' = llen s /\ hmax s' = hmax s)
    as [s' [H' [E [W' [F' [O' [S' [R1 [R2 R3]]]]]]]]].
  { destruct (Nat.eq_dec n 0) as [En|Nn].
    - (* last entry removed: the sifts only rewrite slot 0 *)
      unfold siftUp. cb. rewrite En.
      rewrite (rd_ok _ 0 (H 0)); [|cb; lia|cb; now rewrite upd_same]. cbn [bind].
      cbn [siftUp_loop Nat.ltb Nat.leb Nat.mul Nat.add bind].
      rewrite wr_ok by (cb; lia). cbn [bind]. unfold siftDown. cb.
      rewrite (rd_ok _ 0 (H 0)); [|cb; lia|cb; now rewrite upd_same].
      cbn [bind siftDown_loop Nat.ltb Nat.leb].
      rewrite wr_ok by (cb; lia). cbn [bind]. rewrite wr_ok by (cb; lia). cbn [bind].
      eexists _, H1. split; [reflexivity|]. split; [|split; [|split; [|split]]].
      + destruct W1. constructor; cb; auto; try lia; intros i Hi; lia.
      + intros i Hi. cb in Hi. lia.
      + intros i Hi. lia.
      + apply sameset_refl.
      + cb. auto.
    - destruct (siftUp_spec s1 H1 K A 0) as [s' [H' [E [W' [F' [O' [S' [R1 [R2 [R3 [R4 R5]]]]]]]]]]].
      + assumption.
      + cb. lia.
      + split; [apply (wf_inj _ _ _ _ W1)|]. intros i Hi N. cb. cb in Hi. rewrite HO by auto. rewrite upd_other by auto.
        destruct (F i) as [G3 G4]; [lia|]. split; [assumption|]. rewrite upd_other; [assumption|].
        intros C'. apply (wf_inj _ _ _ _ W) in C'; lia.
      + cb. rewrite upd_same. now rewrite H10.
      + split; [|lia]. intros i Hi N1 N2. cb in Hi. rewrite !HO by auto. apply O. lia.
      + lia.
      + exists s', H'. cb in O'; cb in S'; cb in R1; cb in R2; cb in R3. auto 10. }
  rewrite E. cbn [bind]. exists s', (H 0), (A (H 0)), (K (H 0)).
  split; [reflexivity|]. split; [assumption|]. split; [|apply (Fin s' H'); auto].
  intros h' a' d' Hl. destruct (L2 h') as [i [Hi Ei]]; [congruence|].
  rewrite (L1 h') in Hl by eauto. injection Hl as <- <-. rewrite <- Ei. apply (root_min K (hlen s)); auto.
Qed.

Lemma pop_empty cap s m : rep cap s m -> size m = 0 -> pop ltb s = Throw "heap pop error: empty heap".
Proof. intros R Hs. unfold pop. destruct (Nat.eqb_spec (hlen s) 0) as [C|C]; [reflexivity|].
  destruct R. lia. Qed.

Lemma peek_ok cap s m : rep cap s m -> size m <> 0 ->
  exists h a d, peek s = Ok d /\ live m h = Some (a, d) /\
    (forall h' a' d', live m h' = Some (a', d') -> ltb d' d = false).
Proof.
  intros [[H [K [A [W [F [O [L1 L2]]]]]]] RC RN RS] Hsz.
  pose proof (wf_hl _ _ _ _ W) as Whl. pose proof (wf_ll _ _ _ _ W) as Wll.
  pose proof (wf_ld _ _ _ _ W) as Wld. pose proof (wf_lh _ _ _ _ W) as Wlh.
  unfold peek. destruct (Nat.eqb_spec (hlen s) 0) as [C|_]; [lia|].
  destruct (F 0) as [F1 F2]; [lia|].
  pose proof (wf_small _ _ _ _ W 0 ltac:(lia)) as S0.
  rewrite (rd_ok (hp s) 0 (H 0)) by (lia || assumption). cbn [bind].
  exists (H 0), (A (H 0)), (K (H 0)). split; [apply rd_ok; [lia|apply (wf_d _ _ _ _ W); lia]|].
  split; [apply L1; exists 0; split; [lia|auto]|].
  intros h' a' d' Hl. destruct (L2 h') as [i [Hi Ei]]; [congruence|].
  rewrite (L1 h') in Hl by eauto. injection Hl as <- <-. rewrite <- Ei. apply (root_min K (hlen s)); auto.
Qed.

Lemma size_le_next (m : bag D) : size m <= next m.
Proof. unfold size. rewrite <- (seq_length (next m) 0) at 2.
  induction (seq 0 (next m)) as [|x l IH]; cbn; [lia|]. destruct (live m x); cbn; lia. Qed.

Lemma step_refines cap s m o : rep cap s m -> allowed cap m o ->
  exists s' r m', hstep ltb s o = Ok (s', r) /\ bag_step ltb cap m o r m' /\ rep cap s' m'.
Proof.
  intros R Al. destruct o as [a d|h d|]; cbn [hstep].
  - destruct (Nat.eq_dec (size m) cap) as [E|N].
    + rewrite (push_full cap s m a d R E). exists s, RThrown, m. split; [reflexivity|].
      split; [apply step_push_full; assumption|assumption].
    + cbn in Al. assert (size m <= next m) by apply size_le_next.
      assert (next m < cap) by (destruct Al; [assumption|contradiction]).
      destruct (push_ok cap s m a d R) as [s' [E' R']]; [lia|lia|]. rewrite E'.
      eexists _, _, _. split; [reflexivity|]. split; [apply step_push; lia|assumption].
  - cbn in Al. destruct (live m h) as [[a d0']|] eqn:El; [|congruence].
    destruct (set_ok cap s m h a d0' d R El) as [s' [E' R']]. rewrite E'. cbn [bind].
    eexists _, _, _. split; [reflexivity|]. split; [eapply step_set; eassumption|assumption].
  - destruct (Nat.eq_dec (size m) 0) as [E|N].
    + rewrite (pop_empty cap s m R E). exists s, RThrown, m. split; [reflexivity|].
      split; [apply step_pop_empty; assumption|assumption].
    + destruct (pop_ok cap s m R N) as [s' [h [a [d [E' [Hl [Hmin R']]]]]]]. rewrite E'.
      eexists _, _, _. split; [reflexivity|]. split; [eapply step_pop; eassumption|assumption].
Qed.

(** Every history either runs to the end, tracking the bag, or stops at its first call that breaks the
    contract [allowed]. *)
Lemma exec_refines_from cap ops : forall s m, rep cap s m ->
  exists k outs s' m',
    hexec ltb s (firstn k ops) = Ok (s', outs) /\
    bag_run ltb cap m (firstn k ops) outs m' /\ rep cap s' m' /\
    (k = List.length ops \/ exists o, nth_error ops k = Some o /\ ~ allowed cap m' o).
Proof.
  assert (Dec : forall (m : bag D) o, allowed cap m o \/ ~ allowed cap m o).
  { intros m o. destruct o; cbn; try tauto; try lia. destruct (live m h); [left; congruence|right; congruence]. }
  induction ops as [|o os IH]; intros s m R.
  - exists 0, [], s, m. split; [reflexivity|]. split; [constructor|]. split; [assumption|left; reflexivity].
  - destruct (Dec m o) as [Al|Nal].
    + destruct (step_refines cap s m o R Al) as [s1 [r [m1 [E1 [B1 R1]]]]].
      destruct (IH s1 m1 R1) as [k [outs [s2 [m2 [E2 [B2 [R2 Q]]]]]]].
      exists (S k), (r :: outs), s2, m2. cbn [firstn hexec]. rewrite E1. cbn [bind]. rewrite E2. cbn [bind].
      split; [reflexivity|]. split; [econstructor; eassumption|]. split; [assumption|].
      cbn [nth_error List.length]. destruct Q as [Q|Q]; [left; lia|right; exact Q].
    + exists 0, [], s, m. cbn [firstn hexec nth_error]. split; [reflexivity|]. split; [constructor|].
      split; [assumption|]. right. exists o. split; [reflexivity|assumption].
Qed.

(** ** The self test *)
Lemma for_loop_unit n : forall lo (f : nat -> unit -> res unit),
  (forall i, lo <= i < lo + n -> f i tt = Ok tt) -> for_loop n lo f tt = Ok tt.
Proof. induction n as [|n IH]; intros lo f Hf; cbn [for_loop]; [reflexivity|].
  rewrite Hf by lia. cbn [bind]. apply IH. intros i Hi. apply Hf. lia. Qed.

Lemma htest_sound cap s m : rep cap s m -> htest ltb s = Ok tt.
Proof.
  intros [[H [K [A [W [F [O [L1 L2]]]]]]] RC RN RS].
  pose proof (wf_hl _ _ _ _ W) as Whl. pose proof (wf_ll _ _ _ _ W) as Wll.
  pose proof (wf_ld _ _ _ _ W) as Wld. pose proof (wf_lh _ _ _ _ W) as Wlh. pose proof (wf_lb _ _ _ _ W) as Wlb.
  assert (Rh : forall i, i < hlen s -> rd (hp s) i = Ok (H i)).
  { intros i Hi. apply rd_ok; [lia|apply F; assumption]. }
  assert (Rd : forall i, i < hlen s -> rd (dist s) (H i) = Ok (K (H i))).
  { intros i Hi. pose proof (wf_small _ _ _ _ W i Hi). apply rd_ok; [lia|apply (wf_d _ _ _ _ W); assumption]. }
  assert (Ch : forall i c, i < hlen s -> 0 < c -> par c = i -> htest_child ltb s i c = Ok tt).
  { intros i c Hi Hc Ep. unfold htest_child. destruct (Nat.ltb_spec c (hlen s - 1)) as [L|L]; [|reflexivity].
    rewrite Rh by lia. cbn [bind]. rewrite Rd by lia. cbn [bind]. rewrite Rh by lia. cbn [bind].
    rewrite Rd by lia. cbn [bind].
    assert (Hle : le (K (H i)) (K (H c))) by (rewrite <- Ep; apply O; lia).
    unfold le in Hle. now rewrite Hle. }
  unfold htest. rewrite for_loop_unit.
  - cbn [bind]. apply for_loop_unit. intros i Hi. rewrite Rh by lia. cbn [bind].
    rewrite (rd_ok (bp s) (H i) i).
    + cbn [bind]. now rewrite Nat.eqb_refl.
    + pose proof (wf_small _ _ _ _ W i ltac:(lia)). lia.
    + apply F. lia.
  - intros i Hi. rewrite Ch; [|lia|lia|apply par_left]. cbn [bind]. apply Ch; [lia|lia|apply par_right].
Qed.
End HeapP.
