(** Fast marching: memory safety, termination, and a generic preservation principle. *)
From Verif Require Import Base HeapModel HeapSpec HeapProof FmmModel FmmGrid.
Open Scope nat_scope.

Lemma Rltb_irrefl a : Rltb a a = false.
Proof. unfold Rltb. destruct (Rlt_dec a a); [lra|reflexivity]. Qed.
Lemma Rltb_trans a b c : Rltb a b = true -> Rltb b c = true -> Rltb a c = true.
Proof. unfold Rltb. destruct (Rlt_dec a b), (Rlt_dec b c), (Rlt_dec a c); try discriminate; auto; lra. Qed.
Lemma Rltb_total a b : Rltb a b = false -> Rltb b a = false -> a = b.
Proof. unfold Rltb. destruct (Rlt_dec a b), (Rlt_dec b a); try discriminate; intros; lra. Qed.
Lemma Rltb_false a b : Rltb a b = false <-> (b <= a)%R.
Proof. unfold Rltb. destruct (Rlt_dec a b); split; intros; try discriminate; try reflexivity; lra. Qed.
Lemma Reqb_true a b : Reqb a b = true <-> a = b.
Proof. unfold Reqb. destruct (Req_EM_T a b); split; intros; try discriminate; auto; contradiction. Qed.
Lemma Reqb_false a b : Reqb a b = false <-> a <> b.
Proof. unfold Reqb. destruct (Req_EM_T a b); split; intros; try discriminate; auto; contradiction. Qed.
Lemma flg_eqb_eq a b : flg_eqb a b = true <-> a = b.
Proof. destruct a, b; cbn; split; intros; try discriminate; reflexivity. Qed.
Lemma flg_eqb_neq a b : flg_eqb a b = false <-> a <> b.
Proof. destruct a, b; cbn; split; intros; try discriminate; try reflexivity; congruence. Qed.

Definition view {A} (n : nat) (b : buf A) (f : nat -> A) : Prop :=
  blen b = n /\ forall i, i < n -> bdat b i = Some (f i).

Lemma view_rd {A} n (b : buf A) f i : view n b f -> i < n -> rd b i = Ok (f i).
Proof. intros [L D] Hi. apply rd_ok; [lia|auto]. Qed.
Lemma view_wr {A} n (b : buf A) f i v : view n b f -> i < n ->
  exists b', wr b i v = Ok b' /\ view n b' (upd f i v).
Proof.
  intros [L D] Hi. exists (mkbuf (blen b) (upd (bdat b) i (Some v))). split; [apply wr_ok; lia|].
  split; cbn; [exact L|]. intros k Hk. unfold upd. destruct (Nat.eqb k i); auto.
Qed.

Lemma for_loop_S_inv {S} (P : nat -> S -> Prop) n f : forall lo s,
  P lo s ->
  (forall i s, lo <= i < lo + n -> P i s -> exists s', f i s = Ok s' /\ P (Datatypes.S i) s') ->
  exists s', for_loop n lo f s = Ok s' /\ P (lo + n) s'.
Proof.
  induction n as [|n IH]; intros lo s P0 St; cbn [for_loop].
  - exists s. rewrite Nat.add_0_r. auto.
  - destruct (St lo s ltac:(lia) P0) as [s1 [E1 P1]]. rewrite E1. cbn [bind].
    destruct (IH (Datatypes.S lo) s1 P1) as [s2 [E2 P2]].
    { intros i t Hi. apply St. lia. }
    exists s2. split; [exact E2|]. replace (lo + Datatypes.S n) with (Datatypes.S lo + n) by lia. exact P2.
Qed.

Section FMM.
Variable shape : list nat.
Variable dX : list R.
Variable phi : nat -> R.
Let sz := size_ shape.
Let nd := List.length shape.

(** pure counterparts of the reads *)
Definition nbF (F : nat -> flg) (g : flg) (i d : nat) (j : Z) : option nat :=
  match nb shape i d j with Some n => if flg_eqb (F n) g then None else Some n | None => None end.

Lemma nb_lt i d j n : In j dirs -> i < sz -> d < nd -> nb shape i d j = Some n -> n < sz.
Proof.
  intros Hj Hi Hd E. assert (Hj' : (j = 1 \/ j = -1)%Z) by (cbn in Hj; lia).
  destruct (nb_in shape i d j n Hj' Hi Hd E); auto.
Qed.

Lemma getN_view f F i d j g : view sz f F -> In j dirs -> i < sz -> d < nd ->
  getN shape f i d j g = Ok (nbF F g i d j).
Proof.
  intros V Hj Hi Hd. pose proof (nb_lt i d j) as L. unfold getN, nbF, nb in *. unfold bind.
  destruct ((Z.of_nat (coord shape i d) + j >=? Z.of_nat (nth d shape 0%nat))%Z
            || (Z.of_nat (coord shape i d) + j <? 0)%Z)%bool eqn:C; [reflexivity|].
  specialize (L _ Hj Hi Hd eq_refl).
  assert (Hp : (0 <= Z.of_nat i + j * Z.of_nat (shift_ shape d))%Z).
  { assert (Hj' : (j = 1 \/ j = -1)%Z) by (cbn in Hj; lia).
    destruct (move_gen shape i d j Hj' Hi Hd) as [i' [E _]]; [|lia].
    apply orb_false_iff in C. destruct C. lia. }
  unfold rdZ. destruct (Z.ltb_spec (Z.of_nat i + j * Z.of_nat (shift_ shape d)) 0); [lia|].
  rewrite (view_rd sz f F _ V L). destruct (flg_eqb _ _); reflexivity.
Qed.

Definition bestv (F : nat -> flg) (T : nat -> R) (i d : nat) : R :=
  fold_left (fun value j =>
    match nbF F Mask i d j with
    | None => value
    | Some n => if flg_eqb (F n) Frozen then (if Rlt_dec (Rabs (T n)) (Rabs value) then T n else value) else value
    end) dirs maxDouble.

Definition abcv (F : nat -> flg) (T : nat -> R) (i : nat) (ds : list nat) (acc : R * R * R) : R * R * R :=
  fold_left (fun '(a, b, c) dim =>
    let value := bestv F T i dim in
    if Rlt_dec value maxDouble
    then (a + idx2 dX dim, b - idx2 dX dim * 2 * value, c + idx2 dX dim * value ^ 2)%R
    else (a, b, c)) ds acc.

Definition updv (F : nat -> flg) (T : nat -> R) (i : nat) : R :=
  let '(a, b, c) := abcv F T i (dims shape) (0%R, 0%R, 0%R) in solveQuadratic phi i a b c.

Lemma fold_res_pure {A S} (f : A -> S -> res S) (g : S -> A -> S) l : forall s,
  (forall a s, In a l -> f a s = Ok (g s a)) -> fold_res f l s = Ok (fold_left g l s).
Proof.
  induction l as [|a l IH]; intros s H; cbn [fold_res fold_left]; [reflexivity|].
  rewrite H by (left; reflexivity). cbn [bind]. apply IH. intros; apply H; right; assumption.
Qed.

Lemma in_dims d : In d (dims shape) <-> d < nd.
Proof. unfold dims. rewrite in_seq. unfold dim_, nd. lia. Qed.

Lemma best_view f ds F T i d : view sz f F -> view sz ds T -> i < sz -> d < nd ->
  best shape f ds i d = Ok (bestv F T i d).
Proof.
  intros VF VT Hi Hd. unfold best, bestv. apply fold_res_pure. intros j value Hj.
  rewrite (getN_view f F) by assumption. cbn [bind].
  unfold nbF. destruct (nb shape i d j) as [n|] eqn:E; [|reflexivity].
  pose proof (nb_lt _ _ _ _ Hj Hi Hd E) as Hn.
  destruct (flg_eqb (F n) Mask); [reflexivity|].
  rewrite (view_rd sz f F n VF Hn). cbn [bind]. destruct (flg_eqb (F n) Frozen); [|reflexivity].
  rewrite (view_rd sz ds T n VT Hn). cbn [bind]. destruct (Rlt_dec _ _); reflexivity.
Qed.

Lemma update_view f ds F T i : view sz f F -> view sz ds T -> i < sz ->
  updatePointOrderOne shape dX phi f ds i = Ok (updv F T i).
Proof.
  intros VF VT Hi. unfold updatePointOrderOne, updv.
  rewrite (fold_res_pure _ (fun '(a, b, c) dim =>
    let value := bestv F T i dim in
    if Rlt_dec value maxDouble
    then (a + idx2 dX dim, b - idx2 dX dim * 2 * value, c + idx2 dX dim * value ^ 2)%R
    else (a, b, c))).
  - cbn [bind]. unfold abcv. destruct (fold_left _ _ _) as [[a b] c]. reflexivity.
  - intros d [[a b] c] Hd. apply in_dims in Hd. rewrite (best_view f ds F T) by assumption.
    cbn [bind]. reflexivity.
Qed.

(** counting cells with a given flag *)
Definition cnt (g : flg) (F : nat -> flg) : nat :=
  List.length (filter (fun i => flg_eqb (F i) g) (seq 0 sz)).

Lemma filter_len_upd (p q : nat -> bool) i l : NoDup l -> In i l -> p i = true -> q i = false ->
  (forall k, k <> i -> p k = q k) ->
  List.length (filter p l) = S (List.length (filter q l)).
Proof.
  intros ND. induction l as [|x l IH]; intros Hin Hp Hq He; [destruct Hin|].
  inversion ND as [|x' l' Nx ND']; subst. cbn [filter]. destruct Hin as [->|Hin].
  - rewrite Hp, Hq. cbn. f_equal. f_equal. apply filter_ext_in. intros k Hk. apply He. intros ->. contradiction.
  - assert (x <> i) by (intros ->; contradiction). rewrite (He x) by assumption.
    specialize (IH ND' Hin Hp Hq He). destruct (q x); cbn; lia.
Qed.

Lemma cnt_leave g F i h : i < sz -> F i = g -> h <> g -> cnt g F = S (cnt g (upd F i h)).
Proof.
  intros Hi E N. unfold cnt. apply (filter_len_upd _ _ i).
  - apply seq_NoDup.
  - apply in_seq; lia.
  - apply flg_eqb_eq; assumption.
  - rewrite upd_same. apply flg_eqb_neq; assumption.
  - intros k Hk. rewrite upd_other by assumption. reflexivity.
Qed.
Lemma cnt_enter g F i : i < sz -> F i <> g -> cnt g (upd F i g) = S (cnt g F).
Proof.
  intros Hi N. unfold cnt. apply (filter_len_upd _ _ i).
  - apply seq_NoDup.
  - apply in_seq; lia.
  - rewrite upd_same. apply flg_eqb_eq. reflexivity.
  - apply flg_eqb_neq; assumption.
  - intros k Hk. rewrite upd_other by assumption. reflexivity.
Qed.
Lemma cnt_other g F i h : F i <> g -> h <> g -> cnt g (upd F i h) = cnt g F.
Proof.
  intros N1 N2. unfold cnt. f_equal. apply filter_ext. intros k. unfold upd.
  destruct (Nat.eqb_spec k i) as [->|]; [|reflexivity].
  rewrite (proj2 (flg_eqb_neq h g) N2), (proj2 (flg_eqb_neq (F i) g) N1). reflexivity.
Qed.
Lemma filter_len_le {A} (p : A -> bool) l : List.length (filter p l) <= List.length l.
Proof. induction l as [|x l IH]; cbn; [lia|]. destruct (p x); cbn; lia. Qed.
Lemma cnt_le g F : cnt g F <= sz.
Proof. unfold cnt. rewrite <- (seq_length sz 0) at 2. apply filter_len_le. Qed.
Lemma cnt_lt g F i : i < sz -> F i <> g -> cnt g F < sz.
Proof. intros Hi N. pose proof (cnt_enter g F i Hi N). pose proof (cnt_le g (upd F i g)). lia. Qed.

Lemma countFlag_view g f F : view sz f F -> countFlag shape g f = Ok (cnt g F).
Proof.
  intros V. unfold countFlag, cnt.
  destruct (for_loop_S_inv (fun i n => n = List.length (filter (fun i => flg_eqb (F i) g) (seq 0 i)))
     (size_ shape) (fun i n => fi <- rd f i ;; Ok (if flg_eqb fi g then S n else n)) 0 0) as [n [E P]].
  - reflexivity.
  - intros i n Hi ->. rewrite (view_rd sz f F i V) by (unfold sz; lia). cbn [bind].
    eexists. split; [reflexivity|]. rewrite seq_S, filter_app, app_length. cbn.
    destruct (flg_eqb (F i) g); cbn; lia.
  - rewrite E, P. reflexivity.
Qed.

(** ** Machine invariant: concrete state [s], bag of heap entries [m], flag map [F], distance map [T] *)
Record Inv (M : nat) (s : st) (m : bag R) (F : nat -> flg) (T : nat -> R) : Prop := {
  i_fl : view sz (fl s) F;
  i_ds : view sz (ds s) T;
  i_hq : blen (hq s) = sz;
  i_rep : rep R Rltb M (pq s) m;
  i_mask : forall i, i < sz -> F i <> Mask;
  i_l1 : forall i, i < sz -> F i = Narrow ->
           exists h, bdat (hq s) i = Some h /\ live m h = Some (i, Rabs (T i));
  i_l2 : forall h a d, live m h = Some (a, d) ->
           a < sz /\ F a = Narrow /\ bdat (hq s) a = Some h /\ d = Rabs (T a);
  i_cnt : next m + cnt Far F = M
}.

Lemma live_lt_next M s m F T h e : Inv M s m F T -> live m h = Some e -> h < next m.
Proof.
  intros I E. destruct (i_rep _ _ _ _ _ I) as [[H [K [A [W [Fu [O [L1 L2]]]]]]] RC RN RS].
  destruct (L2 h) as [i [Hi <-]]; [congruence|]. rewrite RN. apply (wf_small _ _ _ _ _ W). exact Hi.
Qed.

Lemma push_step M s m F T i d : Inv M s m F T -> i < sz -> F i = Far ->
  exists f' ds' h' k q', wr (fl s) i Narrow = Ok f' /\ wr (ds s) i d = Ok ds' /\
    push Rltb (pq s) i (Rabs d) = Ok (h', k) /\ wr (hq s) i k = Ok q' /\
    view sz f' (upd F i Narrow) /\
    exists m', Inv M (mkst f' ds' q' h') m' (upd F i Narrow) (upd T i d).
Proof.
  intros I Hi Ef.
  destruct (view_wr sz (fl s) F i Narrow (i_fl _ _ _ _ _ I) Hi) as [f' [E1 V1]].
  destruct (view_wr sz (ds s) T i d (i_ds _ _ _ _ _ I) Hi) as [ds' [E2 V2]].
  pose proof (cnt_leave Far F i Narrow Hi Ef ltac:(congruence)) as C1.
  pose proof (i_cnt _ _ _ _ _ I) as C2. pose proof (size_le_next R m) as SL.
  destruct (push_ok R Rltb Rltb_irrefl Rltb_trans Rltb_total M (pq s) m i (Rabs d)) as [h' [E3 R3]];
    [apply (i_rep _ _ _ _ _ I)|lia|lia|].
  exists f', ds', h', (next m). eexists. split; [exact E1|]. split; [exact E2|]. split; [exact E3|].
  split; [apply wr_ok; rewrite (i_hq _ _ _ _ _ I); exact Hi|]. split; [exact V1|].
  eexists. constructor; cbn [fl ds hq pq]; [exact V1|exact V2|apply (i_hq _ _ _ _ _ I)|exact R3| | | |].
  - intros k Hk. unfold upd. destruct (Nat.eqb k i); [congruence|]. apply (i_mask _ _ _ _ _ I); auto.
  - intros k Hk Nk. cbn [bdat live]. destruct (Nat.eq_dec k i) as [->|N].
    + exists (next m). rewrite !upd_same. auto.
    + rewrite (upd_other F) in Nk by assumption.
      destruct (i_l1 _ _ _ _ _ I k Hk Nk) as [h [A1 A2]].
      exists h. rewrite !upd_other; auto.
      pose proof (live_lt_next M s m F T h _ I A2). lia.
  - intros h a e. cbn [bdat live]. intros El. destruct (Nat.eq_dec h (next m)) as [->|N].
    + rewrite upd_same in El. injection El as <- <-. rewrite !upd_same. auto.
    + rewrite upd_other in El by assumption.
      destruct (i_l2 _ _ _ _ _ I h a e El) as [A1 [A2 [A3 A4]]].
      assert (a <> i) by (intros ->; congruence). rewrite !upd_other by assumption. auto.
  - cbn [next]. lia.
Qed.

Lemma set_step M s m F T i d : Inv M s m F T -> i < sz -> F i = Narrow ->
  exists k h' ds', rd (hq s) i = Ok k /\ set Rltb (pq s) k (Rabs d) = Ok h' /\ wr (ds s) i d = Ok ds' /\
    exists m', Inv M (mkst (fl s) ds' (hq s) h') m' F (upd T i d).
Proof.
  intros I Hi Ef.
  destruct (view_wr sz (ds s) T i d (i_ds _ _ _ _ _ I) Hi) as [ds' [E2 V2]].
  destruct (i_l1 _ _ _ _ _ I i Hi Ef) as [h [A1 A2]].
  destruct (set_ok R Rltb Rltb_irrefl Rltb_trans Rltb_total M (pq s) m h i _ (Rabs d) (i_rep _ _ _ _ _ I) A2)
    as [h' [E3 R3]].
  exists h, h', ds'. split; [apply rd_ok; [rewrite (i_hq _ _ _ _ _ I); exact Hi|exact A1]|].
  split; [exact E3|]. split; [exact E2|].
  eexists. constructor; cbn [fl ds hq pq];
    [apply (i_fl _ _ _ _ _ I)|exact V2|apply (i_hq _ _ _ _ _ I)|exact R3|apply (i_mask _ _ _ _ _ I)| | |].
  - intros k Hk Nk. cbn [live]. destruct (Nat.eq_dec k i) as [->|N].
    + exists h. rewrite !upd_same. auto.
    + destruct (i_l1 _ _ _ _ _ I k Hk Nk) as [g [B1 B2]]. exists g. rewrite !upd_other; auto.
      intros ->. rewrite A2 in B2. injection B2 as ->. congruence.
  - intros g a e. cbn [live]. intros El. destruct (Nat.eq_dec g h) as [->|N].
    + rewrite upd_same in El. injection El as <- <-. rewrite !upd_same. auto.
    + rewrite upd_other in El by assumption.
      destruct (i_l2 _ _ _ _ _ I g a e El) as [B1 [B2 [B3 B4]]].
      assert (a <> i) by (intros ->; congruence). rewrite !upd_other by assumption. auto.
  - cbn [next]. apply (i_cnt _ _ _ _ _ I).
Qed.

Lemma empty_no_narrow M s m F T : Inv M s m F T -> empty (pq s) = true -> forall i, i < sz -> F i <> Narrow.
Proof.
  intros I E i Hi N. destruct (i_l1 _ _ _ _ _ I i Hi N) as [h [A1 A2]].
  destruct (i_rep _ _ _ _ _ I) as [[H [K [A [W [Fu [O [L1 L2]]]]]]] RC RN RS].
  destruct (L2 h) as [k [Hk _]]; [congruence|].
  unfold empty in E. apply Nat.eqb_eq in E. lia.
Qed.

Lemma pop_step M s m F T : Inv M s m F T -> empty (pq s) = false ->
  exists s' a m', popFreeze s = Ok (s', a, Rabs (T a)) /\ a < sz /\ F a = Narrow /\
    (forall k, k < sz -> F k = Narrow -> (Rabs (T a) <= Rabs (T k))%R) /\
    Inv M s' m' (upd F a Frozen) T.
Proof.
  intros I E. assert (Sz : size m <> 0).
  { unfold empty in E. apply Nat.eqb_neq in E. rewrite (rep_size _ _ _ _ _ (i_rep _ _ _ _ _ I)). exact E. }
  destruct (pop_ok R Rltb Rltb_irrefl Rltb_trans Rltb_total M (pq s) m (i_rep _ _ _ _ _ I) Sz)
    as [h' [h [a [d [E1 [E2 [E3 R3]]]]]]].
  destruct (i_l2 _ _ _ _ _ I h a d E2) as [B1 [B2 [B3 ->]]].
  destruct (view_wr sz (fl s) F a Frozen (i_fl _ _ _ _ _ I) B1) as [f' [E4 V4]].
  exists (mkst f' (ds s) (hq s) h'), a. eexists. unfold popFreeze. rewrite E1. cbn [bind].
  rewrite E4. cbn [bind]. split; [reflexivity|]. split; [exact B1|]. split; [exact B2|]. split.
  - intros k Hk Nk. destruct (i_l1 _ _ _ _ _ I k Hk Nk) as [g [C1 C2]].
    apply E3 in C2. apply Rltb_false in C2. exact C2.
  - constructor; cbn [fl ds hq pq];
      [exact V4|apply (i_ds _ _ _ _ _ I)|apply (i_hq _ _ _ _ _ I)|exact R3| | | |].
    + intros k Hk. unfold upd. destruct (Nat.eqb k a); [congruence|]. apply (i_mask _ _ _ _ _ I); auto.
    + intros k Hk Nk. destruct (Nat.eq_dec k a) as [->|N]; [rewrite upd_same in Nk; discriminate|].
      rewrite upd_other in Nk by assumption.
      destruct (i_l1 _ _ _ _ _ I k Hk Nk) as [g [C1 C2]]. exists g. cbn [live]. split; [exact C1|].
      rewrite upd_other; auto. intros ->. rewrite E2 in C2. injection C2 as -> _. congruence.
    + intros g b e. cbn [live]. intros El. destruct (Nat.eq_dec g h) as [->|N];
        [rewrite upd_same in El; discriminate|].
      rewrite upd_other in El by assumption.
      destruct (i_l2 _ _ _ _ _ I g b e El) as [C1 [C2 [C3 C4]]].
      assert (b <> a) by (intros ->; congruence). rewrite upd_other by assumption. auto.
    + cbn [next]. rewrite (cnt_other Far) by congruence. apply (i_cnt _ _ _ _ _ I).
Qed.

(** ** Generic preservation principle for the main loop.
    [V todo F T]: [todo] is the list of (frozen cell, dimension, direction) still to be visited. *)
Definition trip (a : nat) : list (nat * nat * Z) :=
  flat_map (fun d => map (fun j => (a, d, j)) dirs) (dims shape).
Definition trips (l : list nat) : list (nat * nat * Z) := flat_map trip l.

Variable V : list (nat * nat * Z) -> (nat -> flg) -> (nat -> R) -> Prop.
Hypothesis V_pop : forall todo F T i, V todo F T -> i < sz -> F i = Narrow ->
  (forall k, k < sz -> F k = Narrow -> (Rabs (T i) <= Rabs (T k))%R) ->
  (forall a d j, In (a, d, j) todo -> F a = Frozen /\ Rabs (T a) = Rabs (T i)) ->
  V (todo ++ trip i) (upd F i Frozen) T.
Hypothesis V_skip : forall a d j todo F T, V ((a, d, j) :: todo) F T ->
  a < sz -> d < nd -> In j dirs ->
  (forall n, nb shape a d j = Some n -> F n = Frozen) -> V todo F T.
Hypothesis V_zero : forall a d j todo F T n, V ((a, d, j) :: todo) F T ->
  a < sz -> d < nd -> In j dirs -> nb shape a d j = Some n ->
  F n = Narrow \/ F n = Far -> updv F T n = 0%R -> V todo F T.
Hypothesis V_set : forall a d j todo F T n, V ((a, d, j) :: todo) F T ->
  a < sz -> d < nd -> In j dirs -> nb shape a d j = Some n ->
  F n = Narrow -> updv F T n <> 0%R -> V todo F (upd T n (updv F T n)).
Hypothesis V_push : forall a d j todo F T n, V ((a, d, j) :: todo) F T ->
  a < sz -> d < nd -> In j dirs -> nb shape a d j = Some n ->
  F n = Far -> updv F T n <> 0%R -> V todo (upd F n Narrow) (upd T n (updv F T n)).

(** number of frozen cells never decreases *)
Lemma touch_ok M s m F T a d j todo : Inv M s m F T -> V ((a, d, j) :: todo) F T ->
  a < sz -> d < nd -> In j dirs ->
  exists s' m' F' T', touch shape dX phi a d j s = Ok s' /\ Inv M s' m' F' T' /\ V todo F' T' /\
    cnt Frozen F' = cnt Frozen F.
Proof.
  intros I Vs Ha Hd Hj. pose proof (i_fl _ _ _ _ _ I) as VF. pose proof (i_ds _ _ _ _ _ I) as VT.
  unfold touch. rewrite (getN_view _ F) by assumption. cbn [bind]. unfold nbF.
  destruct (nb shape a d j) as [n|] eqn:En.
  2:{ exists s, m, F, T. split; [reflexivity|]. split; [exact I|]. split; [|reflexivity].
      apply (V_skip a d j); auto. intros n E. congruence. }
  pose proof (nb_lt _ _ _ _ Hj Ha Hd En) as Hn.
  destruct (F n) eqn:Ef; cbn [flg_eqb].
  - (* Far *)
    rewrite (view_rd sz _ F n VF Hn), Ef. cbn [bind flg_eqb].
    rewrite (update_view _ _ F T n VF VT Hn). cbn [bind].
    destruct (Reqb (updv F T n) 0) eqn:Ez.
    + apply Reqb_true in Ez. exists s, m, F, T. split; [reflexivity|]. split; [exact I|].
      split; [|reflexivity]. apply (V_zero a d j _ _ _ n); auto.
    + apply Reqb_false in Ez.
      destruct (push_step M s m F T n (updv F T n) I Hn Ef) as [f' [ds' [h' [k [q' [E1 [E2 [E3 [E4 [_ [m' I']]]]]]]]]]].
      rewrite E2. cbn [bind]. rewrite E1. cbn [bind]. rewrite E3. cbn [bind]. rewrite E4. cbn [bind].
      eexists _, m', _, _. split; [reflexivity|]. split; [exact I'|].
      split; [apply (V_push a d j); auto|]. apply cnt_other; congruence.
  - (* Narrow *)
    rewrite (view_rd sz _ F n VF Hn), Ef. cbn [bind flg_eqb].
    rewrite (update_view _ _ F T n VF VT Hn). cbn [bind].
    destruct (Reqb (updv F T n) 0) eqn:Ez.
    + apply Reqb_true in Ez. exists s, m, F, T. split; [reflexivity|]. split; [exact I|].
      split; [|reflexivity]. apply (V_zero a d j _ _ _ n); auto.
    + apply Reqb_false in Ez.
      destruct (set_step M s m F T n (updv F T n) I Hn Ef) as [k [h' [ds' [E1 [E2 [E3 [m' I']]]]]]].
      rewrite E1. cbn [bind]. rewrite E2. cbn [bind]. rewrite E3. cbn [bind].
      eexists _, m', _, _. split; [reflexivity|]. split; [exact I'|].
      split; [apply (V_set a d j); auto|reflexivity].
  - (* Frozen *)
    exists s, m, F, T. split; [reflexivity|]. split; [exact I|]. split; [|reflexivity].
    apply (V_skip a d j); auto. intros k E. congruence.
  - exfalso. apply (i_mask _ _ _ _ _ I n Hn Ef).
Qed.

Lemma touches_ok M l : forall s m F T, Inv M s m F T -> V l F T ->
  (forall a d j, In (a, d, j) l -> a < sz /\ d < nd /\ In j dirs) ->
  exists s' m' F' T', fold_res (fun '(a, d, j) s => touch shape dX phi a d j s) l s = Ok s' /\
    Inv M s' m' F' T' /\ V [] F' T' /\ cnt Frozen F' = cnt Frozen F.
Proof.
  induction l as [|[[a d] j] l IH]; intros s m F T I Vs Hl; cbn [fold_res].
  - exists s, m, F, T. auto.
  - destruct (Hl a d j (or_introl eq_refl)) as [Ha [Hd Hj]].
    destruct (touch_ok M s m F T a d j l I Vs Ha Hd Hj) as [s1 [m1 [F1 [T1 [E1 [I1 [V1 C1]]]]]]].
    rewrite E1. cbn [bind].
    destruct (IH s1 m1 F1 T1 I1 V1) as [s2 [m2 [F2 [T2 [E2 [I2 [V2 C2]]]]]]].
    { intros; apply Hl; right; assumption. }
    exists s2, m2, F2, T2. split; [exact E2|]. split; [exact I2|]. split; [exact V2|]. lia.
Qed.

Lemma fold_res_flat {A B S} (f : A -> list B) (g : B -> S -> res S) l : forall s,
  fold_res g (flat_map f l) s = fold_res (fun a s => fold_res g (f a) s) l s.
Proof.
  induction l as [|a l IH]; intros s; cbn [flat_map fold_res]; [reflexivity|].
  rewrite fold_res_app. destruct (fold_res g (f a) s); cbn [bind]; auto.
Qed.
Lemma fold_res_map {A B S} (f : A -> B) (g : B -> S -> res S) l : forall s,
  fold_res g (map f l) s = fold_res (fun a s => g (f a) s) l s.
Proof. induction l as [|a l IH]; intros s; cbn [map fold_res]; [reflexivity|].
  destruct (g (f a) s); cbn [bind]; auto. Qed.
Lemma fold_res_ext {A S} (f g : A -> S -> res S) l : (forall a s, In a l -> f a s = g a s) ->
  forall s, fold_res f l s = fold_res g l s.
Proof. induction l as [|a l IH]; intros H s; cbn [fold_res]; [reflexivity|].
  rewrite H by (left; reflexivity). destruct (g a s); cbn [bind]; auto.
  apply IH. intros; apply H; right; assumption. Qed.

Lemma touchAll_trips l s : touchAll shape dX phi l s =
  fold_res (fun '(a, d, j) s => touch shape dX phi a d j s) (trips l) s.
Proof.
  unfold touchAll, trips. rewrite fold_res_flat. apply fold_res_ext. intros a t _.
  unfold trip. rewrite fold_res_flat. apply fold_res_ext. intros d t' _.
  rewrite fold_res_map. reflexivity.
Qed.

Lemma in_trip a x d j : In (x, d, j) (trip a) <-> x = a /\ d < nd /\ In j dirs.
Proof.
  unfold trip. rewrite in_flat_map. split.
  - intros [e [He H]]. apply in_map_iff in H. destruct H as [j' [E Hj]]. injection E as <- <- <-.
    apply in_dims in He. auto.
  - intros [-> [Hd Hj]]. exists d. split; [apply in_dims; exact Hd|]. apply in_map_iff. exists j. auto.
Qed.
Lemma in_trips l x d j : In (x, d, j) (trips l) <-> In x l /\ d < nd /\ In j dirs.
Proof.
  unfold trips. rewrite in_flat_map. split.
  - intros [a [Ha H]]. apply in_trip in H. destruct H as [-> [Hd Hj]]. auto.
  - intros [Hx [Hd Hj]]. exists x. split; [exact Hx|]. apply in_trip. auto.
Qed.

Lemma popEqual_ok M fuel : forall s m F T v l, Inv M s m F T -> V (trips l) F T ->
  (forall a, In a l -> a < sz /\ F a = Frozen /\ Rabs (T a) = v) ->
  sz <= cnt Frozen F + fuel ->
  exists s' m' F' l', popEqual fuel v l s = Ok (s', l') /\ Inv M s' m' F' T /\ V (trips l') F' T /\
    (forall a, In a l' -> a < sz /\ F' a = Frozen /\ Rabs (T a) = v) /\ cnt Frozen F <= cnt Frozen F'.
Proof.
  induction fuel as [|fuel IH]; intros s m F T v l I Vs Hl Hf; cbn [popEqual];
    destruct (empty (pq s)) eqn:Ee.
  - exists s, m, F, l. split; [reflexivity|]. auto.
  - exfalso. destruct (pop_step M s m F T I Ee) as [_ [a [_ [_ [Ha [Na _]]]]]].
    pose proof (cnt_lt Frozen F a Ha ltac:(congruence)). lia.
  - exists s, m, F, l. split; [reflexivity|]. auto.
  - destruct (pop_step M s m F T I Ee) as [s1 [a [m1 [E1 [Ha [Na [Min I1]]]]]]].
    assert (Sz : size m <> 0).
    { unfold empty in Ee. apply Nat.eqb_neq in Ee. rewrite (rep_size _ _ _ _ _ (i_rep _ _ _ _ _ I)). exact Ee. }
    destruct (peek_ok R Rltb Rltb_irrefl Rltb_trans Rltb_total M (pq s) m (i_rep _ _ _ _ _ I) Sz)
      as [h [b [d [Ep [El Emin]]]]].
    rewrite Ep. cbn [bind].
    destruct (i_l2 _ _ _ _ _ I h b d El) as [Hb [Nb [_ Ed]]].
    assert (Eq : d = Rabs (T a)).
    { subst d. destruct (i_l1 _ _ _ _ _ I a Ha Na) as [g [_ Lg]]. apply Emin in Lg. apply Rltb_false in Lg.
      specialize (Min b Hb Nb). lra. }
    destruct (Reqb v d) eqn:Ev.
    + apply Reqb_true in Ev. rewrite E1. cbn [bind].
      assert (Hc : cnt Frozen (upd F a Frozen) = S (cnt Frozen F)) by (apply cnt_enter; [exact Ha|congruence]).
      destruct (IH s1 m1 (upd F a Frozen) T v (l ++ [a]) I1) as [s2 [m2 [F2 [l2 [E2 [I2 [V2 [H2 C2]]]]]]]].
      * unfold trips. rewrite flat_map_app. cbn [flat_map]. rewrite app_nil_r. apply V_pop; auto.
        intros x e j Hx. apply in_trips in Hx. destruct Hx as [Hx _]. destruct (Hl x Hx) as [_ [A B]].
        split; [exact A|]. congruence.
      * intros x Hx. apply in_app_or in Hx. destruct Hx as [Hx|[<-|[]]].
        -- destruct (Hl x Hx) as [A [B C]]. split; [exact A|]. split; [|exact C].
           unfold upd. destruct (Nat.eqb x a); auto.
        -- split; [exact Ha|]. rewrite upd_same. split; [reflexivity|congruence].
      * lia.
      * exists s2, m2, F2, l2. split; [exact E2|]. split; [exact I2|]. split; [exact V2|]. split; [exact H2|]. lia.
    + exists s, m, F, l. split; [reflexivity|]. auto.
Qed.

Lemma mainLoop_ok M fuel : forall s m F T, Inv M s m F T -> V [] F T -> sz <= cnt Frozen F + fuel ->
  exists s' m' F' T', mainLoop shape dX phi fuel s = Ok s' /\ Inv M s' m' F' T' /\ V [] F' T' /\
    (forall i, i < sz -> F' i <> Narrow).
Proof.
  induction fuel as [|fuel IH]; intros s m F T I Vs Hf; cbn [mainLoop]; destruct (empty (pq s)) eqn:Ee.
  - exists s, m, F, T. split; [reflexivity|]. split; [exact I|]. split; [exact Vs|].
    apply (empty_no_narrow M s m F T I Ee).
  - exfalso. destruct (pop_step M s m F T I Ee) as [_ [a [_ [_ [Ha [Na _]]]]]].
    pose proof (cnt_lt Frozen F a Ha ltac:(congruence)). lia.
  - exists s, m, F, T. split; [reflexivity|]. split; [exact I|]. split; [exact Vs|].
    apply (empty_no_narrow M s m F T I Ee).
  - destruct (pop_step M s m F T I Ee) as [s1 [a [m1 [E1 [Ha [Na [Min I1]]]]]]].
    rewrite E1. cbn [bind].
    assert (Hc : cnt Frozen (upd F a Frozen) = S (cnt Frozen F)) by (apply cnt_enter; [exact Ha|congruence]).
    destruct (popEqual_ok M (size_ shape) s1 m1 (upd F a Frozen) T (Rabs (T a)) [a] I1)
      as [s2 [m2 [F2 [l2 [E2 [I2 [V2 [H2 C2]]]]]]]].
    + unfold trips. cbn [flat_map]. rewrite app_nil_r. change (trip a) with ([] ++ trip a).
      apply V_pop; auto. intros x e j [].
    + intros x [<-|[]]. split; [exact Ha|]. rewrite upd_same. auto.
    + unfold sz. lia.
    + rewrite E2. cbn [bind]. rewrite touchAll_trips.
      destruct (touches_ok M (trips l2) s2 m2 F2 T I2 V2) as [s3 [m3 [F3 [T3 [E3 [I3 [V3 C3]]]]]]].
      { intros x d j Hx. apply in_trips in Hx. destruct Hx as [Hx [Hd Hj]]. split; [apply H2; exact Hx|auto]. }
      rewrite E3. cbn [bind]. apply (IH s3 m3 F3 T3 I3 V3). lia.
Qed.

End FMM.
