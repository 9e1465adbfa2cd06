(** Fast marching: initialisation phases, whole-run theorems. *)
From Verif Require Import Base HeapModel HeapSpec HeapProof FmmModel FmmGrid FmmProof.
Open Scope nat_scope.

Section FMM2.
Variable shape : list nat.
Variable dX : list R.
Variable phi : nat -> R.
Let sz := size_ shape.
Let nd := List.length shape.
Notation updv := (updv shape dX phi).
Notation bestv := (bestv shape).
Notation nbF := (nbF shape).
Notation Inv := (Inv shape).
Notation cnt := (cnt shape).

(** two flag maps / distance maps that agree on frozen neighbours give the same update *)
Lemma bestv_ext F T F' T' i d :
  (forall j n, In j dirs -> nb shape i d j = Some n ->
     F n <> Mask /\ F' n <> Mask /\ (F n = Frozen <-> F' n = Frozen) /\ (F n = Frozen -> T n = T' n)) ->
  bestv F T i d = bestv F' T' i d.
Proof.
  intros H. unfold FmmProof.bestv, dirs. cbn [fold_left].
  assert (St : forall j v, In j dirs ->
    match nbF F Mask i d j with
    | None => v
    | Some n => if flg_eqb (F n) Frozen then (if Rlt_dec (Rabs (T n)) (Rabs v) then T n else v) else v
    end =
    match nbF F' Mask i d j with
    | None => v
    | Some n => if flg_eqb (F' n) Frozen then (if Rlt_dec (Rabs (T' n)) (Rabs v) then T' n else v) else v
    end).
  { intros j v Hj. unfold FmmProof.nbF. destruct (nb shape i d j) as [n|] eqn:E; [|reflexivity].
    destruct (H j n Hj E) as [M1 [M2 [Iff Eq]]].
    rewrite (proj2 (flg_eqb_neq _ _) M1), (proj2 (flg_eqb_neq _ _) M2).
    destruct (flg_eqb (F n) Frozen) eqn:E1.
    - apply flg_eqb_eq in E1. rewrite (proj2 (flg_eqb_eq (F' n) Frozen)) by (apply Iff; exact E1).
      rewrite Eq by exact E1. reflexivity.
    - apply flg_eqb_neq in E1. rewrite (proj2 (flg_eqb_neq (F' n) Frozen)); [reflexivity|]. tauto. }
  rewrite !St by (cbn; auto). reflexivity.
Qed.

Lemma fold_left_ext_in {A B} (f g : A -> B -> A) l : (forall a b, In b l -> f a b = g a b) ->
  forall a, fold_left f l a = fold_left g l a.
Proof. induction l as [|b l IH]; intros H a; cbn; [reflexivity|]. rewrite H by (left; reflexivity).
  apply IH. intros; apply H; right; assumption. Qed.

Lemma updv_ext F T F' T' i :
  (forall d j n, d < nd -> In j dirs -> nb shape i d j = Some n ->
     F n <> Mask /\ F' n <> Mask /\ (F n = Frozen <-> F' n = Frozen) /\ (F n = Frozen -> T n = T' n)) ->
  updv F T i = updv F' T' i.
Proof.
  intros H. unfold FmmProof.updv, abcv.
  rewrite (fold_left_ext_in _ (fun '(a, b, c) dim =>
    let value := bestv F' T' i dim in
    if Rlt_dec value maxDouble
    then (a + idx2 dX dim, b - idx2 dX dim * 2 * value, c + idx2 dX dim * value ^ 2)%R
    else (a, b, c))); [reflexivity|].
  intros [[a b] c] d Hd. apply in_dims in Hd. rewrite (bestv_ext F T F' T' i d); [reflexivity|].
  intros j n Hj. apply H; auto.
Qed.

(** ** initialisation *)
Definition crossv (i d : nat) (borders : bool) : bool * R :=
  fold_left (fun '(bo, ld) j =>
    match nb shape i d j with
    | None => (bo, ld)
    | Some n => if Rlt_dec (phi i * phi n) 0 then
         let dd := (nth d dX 0 * phi i / (phi i - phi n))%R in
         (true, if (Reqb ld 0 || Rltb dd ld)%bool then dd else ld)
       else (bo, ld)
    end) dirs (borders, 0%R).
Definition crossAllv (i : nat) (l : list nat) (acc : bool * list R) : bool * list R :=
  fold_left (fun '(bo, lds) d => let '(bo', ld) := crossv i d bo in (bo', lds ++ [ld])) l acc.

Definition borderb (i : nat) : bool := fst (crossAllv i (dims shape) (false, [])).
Definition F0 (i : nat) : flg := if (Reqb (phi i) 0 || borderb i)%bool then Frozen else Far.
Definition T0 (i : nat) : R :=
  if Reqb (phi i) 0 then 0%R else
  if borderb i then
    let m := minDist (snd (crossAllv i (dims shape) (false, []))) in
    if Rlt_dec (phi i) 0 then (- m)%R else m
  else 0%R.

Lemma initZero_ok : exists f d, initZero shape phi
    (mkbuf (size_ shape) (fun _ => Some Far), mkbuf (size_ shape) (fun _ => Some 0%R)) = Ok (f, d) /\
  view sz f (fun i => if Reqb (phi i) 0 then Frozen else Far) /\ view sz d (fun _ => 0%R).
Proof.
  unfold initZero.
  destruct (for_loop_S_inv (fun i '(f, d) =>
      view sz f (fun k => if (Nat.ltb k i && Reqb (phi k) 0)%bool then Frozen else Far) /\
      view sz d (fun _ => 0%R)) (size_ shape)
    (fun i '(f, d) =>
    fi <- rd f i ;;
    if (negb (flg_eqb fi Mask) && Reqb (phi i) 0)%bool then
      f' <- wr f i Frozen ;; d' <- wr d i 0%R ;; Ok (f', d')
    else Ok (f, d)) 0
    (mkbuf (size_ shape) (fun _ => Some Far), mkbuf (size_ shape) (fun _ => Some 0%R))) as [[f d] [E [P1 P2]]].
  - split; split; cbn; auto.
  - intros i [f d] Hi [P1 P2]. assert (Hi' : i < sz) by (unfold sz; lia).
    rewrite (view_rd sz f _ i P1 Hi'). cbn [bind].
    rewrite Nat.ltb_irrefl. cbn [andb flg_eqb negb].
    destruct (Reqb (phi i) 0) eqn:E.
    + destruct (view_wr sz f _ i Frozen P1 Hi') as [f' [E1 V1]].
      destruct (view_wr sz d _ i 0%R P2 Hi') as [d' [E2 V2]].
      rewrite E1. cbn [bind]. rewrite E2. cbn [bind]. eexists. split; [reflexivity|]. split.
      * split; [apply V1|]. intros k Hk. rewrite (proj2 V1 k Hk). f_equal. unfold upd.
        destruct (Nat.eqb_spec k i) as [->|N].
        -- destruct (Nat.ltb_spec i (S i)); [|lia]. rewrite E. reflexivity.
        -- destruct (Nat.ltb_spec k i), (Nat.ltb_spec k (S i)); try lia; reflexivity.
      * split; [apply V2|]. intros k Hk. rewrite (proj2 V2 k Hk). unfold upd. destruct (Nat.eqb k i); reflexivity.
    + eexists. split; [reflexivity|]. split; [|exact P2]. split; [apply P1|].
      intros k Hk. rewrite (proj2 P1 k Hk). f_equal.
      destruct (Nat.eq_dec k i) as [->|N].
      * rewrite E, !andb_false_r. reflexivity.
      * destruct (Nat.ltb_spec k i), (Nat.ltb_spec k (S i)); try lia; reflexivity.
  - exists f, d. split; [exact E|]. split; [|exact P2]. split; [apply P1|].
    intros k Hk. rewrite (proj2 P1 k Hk). f_equal. cbn [Nat.add].
    destruct (Nat.ltb_spec k (size_ shape)); [|unfold sz in Hk; lia]. reflexivity.
Qed.

Lemma crossAll_view f F i : view sz f F -> (forall k, k < sz -> F k <> Mask) -> i < sz ->
  crossAll shape dX phi f i = Ok (crossAllv i (dims shape) (false, [])).
Proof.
  intros VF NM Hi. unfold crossAll, crossAllv. apply fold_res_pure.
  intros d [bo lds] Hd. apply in_dims in Hd. fold nd in Hd. unfold cross.
  rewrite (fold_res_pure _ (fun '(bo, ld) j =>
    match nb shape i d j with
    | None => (bo, ld)
    | Some n => if Rlt_dec (phi i * phi n) 0 then
         let dd := (nth d dX 0 * phi i / (phi i - phi n))%R in
         (true, if (Reqb ld 0 || Rltb dd ld)%bool then dd else ld)
       else (bo, ld)
    end)).
  - cbn [bind]. unfold crossv. destruct (fold_left _ _ _). reflexivity.
  - intros j [b ld] Hj. rewrite (getN_view shape f F) by assumption. cbn [bind].
    unfold FmmProof.nbF. destruct (nb shape i d j) as [n|] eqn:E; [|reflexivity].
    rewrite (proj2 (flg_eqb_neq (F n) Mask)) by (apply NM; apply (nb_lt shape i d j n Hj Hi Hd E)).
    destruct (Rlt_dec (phi i * phi n) 0); reflexivity.
Qed.

Lemma initCross_ok f d :
  view sz f (fun i => if Reqb (phi i) 0 then Frozen else Far) -> view sz d (fun _ => 0%R) ->
  exists f' d', initCross shape dX phi (f, d) = Ok (f', d') /\ view sz f' F0 /\ view sz d' T0.
Proof.
  intros V1 V2. unfold initCross.
  destruct (for_loop_S_inv (fun i '(f, d) =>
      view sz f (fun k => if Nat.ltb k i then F0 k else if Reqb (phi k) 0 then Frozen else Far) /\
      view sz d (fun k => if Nat.ltb k i then T0 k else 0%R)) (size_ shape)
    (fun i '(f, d) =>
    fi <- rd f i ;;
    if flg_eqb fi Far then
      '(bo, lds) <- crossAll shape dX phi f i ;;
      if (bo : bool) then
        d' <- wr d i (if Rlt_dec (phi i) 0 then (- minDist lds)%R else minDist lds) ;;
        f' <- wr f i Frozen ;;
        Ok (f', d')
      else Ok (f, d)
    else Ok (f, d)) 0 (f, d)) as [[f' d'] [E [P1 P2]]].
  - split; [split; [apply V1|apply V1]|split; [apply V2|apply V2]].
  - clear f d V1 V2. intros i [f d] Hi [P1 P2]. assert (Hi' : i < sz) by (unfold sz; lia).
    rewrite (view_rd sz f _ i P1 Hi'). cbn [bind]. rewrite Nat.ltb_irrefl.
    assert (NM : forall k, k < sz -> (if Nat.ltb k i then F0 k else if Reqb (phi k) 0 then Frozen else Far) <> Mask).
    { intros k Hk. unfold F0. destruct (Nat.ltb k i), (Reqb (phi k) 0), (borderb k); cbn; congruence. }
    assert (Keep : (F0 i = if Reqb (phi i) 0 then Frozen else Far) -> T0 i = 0%R ->
       exists s', Ok (f, d) = Ok s' /\ (let '(f, d) := s' in
         view sz f (fun k => if Nat.ltb k (S i) then F0 k else if Reqb (phi k) 0 then Frozen else Far) /\
         view sz d (fun k => if Nat.ltb k (S i) then T0 k else 0%R))).
    { intros EF ET. eexists. split; [reflexivity|]. split.
      - split; [apply P1|]. intros k Hk. rewrite (proj2 P1 k Hk). f_equal.
        destruct (Nat.eq_dec k i) as [->|N].
        + rewrite Nat.ltb_irrefl. destruct (Nat.ltb_spec i (S i)); [|lia]. congruence.
        + destruct (Nat.ltb_spec k i), (Nat.ltb_spec k (S i)); try lia; reflexivity.
      - split; [apply P2|]. intros k Hk. rewrite (proj2 P2 k Hk). f_equal.
        destruct (Nat.eq_dec k i) as [->|N].
        + rewrite Nat.ltb_irrefl. destruct (Nat.ltb_spec i (S i)); [|lia]. congruence.
        + destruct (Nat.ltb_spec k i), (Nat.ltb_spec k (S i)); try lia; reflexivity. }
    destruct (Reqb (phi i) 0) eqn:Ez; cbn [flg_eqb].
    + apply Keep; unfold F0, T0; rewrite Ez; reflexivity.
    + rewrite (crossAll_view f _ i P1 NM Hi'). cbn [bind].
      unfold F0, T0, borderb in Keep. rewrite Ez in Keep.
      destruct (crossAllv i (dims shape) (false, [])) as [bo lds] eqn:Ec. cbn [fst snd] in Keep.
      destruct bo; [|apply Keep; reflexivity].
      destruct (view_wr sz d _ i (if Rlt_dec (phi i) 0 then (- minDist lds)%R else minDist lds) P2 Hi')
        as [d' [E1 W1]].
      destruct (view_wr sz f _ i Frozen P1 Hi') as [f' [E2 W2]].
      rewrite E1. cbn [bind]. rewrite E2. cbn [bind]. eexists. split; [reflexivity|]. split.
      * split; [apply W2|]. intros k Hk. rewrite (proj2 W2 k Hk). f_equal. unfold upd.
        destruct (Nat.eqb_spec k i) as [->|N].
        -- destruct (Nat.ltb_spec i (S i)); [|lia]. unfold F0, borderb. rewrite Ec, Ez. reflexivity.
        -- destruct (Nat.ltb_spec k i), (Nat.ltb_spec k (S i)); try lia; reflexivity.
      * split; [apply W1|]. intros k Hk. rewrite (proj2 W1 k Hk). f_equal. unfold upd.
        destruct (Nat.eqb_spec k i) as [->|N].
        -- destruct (Nat.ltb_spec i (S i)); [|lia]. unfold T0, borderb. rewrite Ec, Ez. reflexivity.
        -- destruct (Nat.ltb_spec k i), (Nat.ltb_spec k (S i)); try lia; reflexivity.
  - exists f', d'. split; [exact E|]. cbn [Nat.add] in *. split.
    + split; [apply P1|]. intros k Hk. rewrite (proj2 P1 k Hk). f_equal.
      destruct (Nat.ltb_spec k (size_ shape)); [reflexivity|unfold sz in Hk; lia].
    + split; [apply P2|]. intros k Hk. rewrite (proj2 P2 k Hk). f_equal.
      destruct (Nat.ltb_spec k (size_ shape)); [reflexivity|unfold sz in Hk; lia].
Qed.

Lemma F0_cases i : F0 i = Far \/ F0 i = Frozen.
Proof. unfold F0. destruct (_ || _)%bool; auto. Qed.

(** state while the narrow band is being initialised *)
Definition has_frozen (i : nat) : Prop := exists d j n, d < nd /\ In j dirs /\ nb shape i d j = Some n /\ F0 n = Frozen.
Record NB (lim : nat -> Prop) (F : nat -> flg) (T : nat -> R) : Prop := {
  nb_froz : forall i, i < sz -> (F i = Frozen <-> F0 i = Frozen);
  nb_keep : forall i, i < sz -> F0 i = Frozen -> T i = T0 i;
  nb_narrow : forall i, i < sz -> F i = Narrow -> F0 i = Far /\ has_frozen i /\ T i = updv F0 T0 i;
  nb_done : forall i, i < sz -> lim i -> F i = Far -> ~ has_frozen i;
  nb_zero : forall i, i < sz -> F i = Far -> T i = 0%R;
  nb_nomask : forall i, i < sz -> F i <> Mask
}.

Lemma updv_NB lim F T i : NB lim F T -> (forall k, k < sz -> F k <> Mask) -> i < sz -> updv F T i = updv F0 T0 i.
Proof.
  intros N NM Hi. apply updv_ext. intros d j n Hd Hj E.
  assert (Hn : n < sz) by (apply (nb_lt shape i d j n Hj Hi Hd E)).
  split; [apply NM; exact Hn|]. split; [destruct (F0_cases n); congruence|].
  split; [apply (nb_froz _ _ _ N n Hn)|]. intros Ef. apply (nb_keep _ _ _ N n Hn).
  apply (nb_froz _ _ _ N n Hn). exact Ef.
Qed.

Lemma narrowOne_ok M i d j s m F T lim : Inv M s m F T -> NB lim F T -> i < sz -> d < nd -> In j dirs ->
  exists s' m' F' T', narrowOne shape dX phi i d j s = Ok s' /\ Inv M s' m' F' T' /\ NB lim F' T' /\
    (F' i = Far -> F i = Far /\ forall n, nb shape i d j = Some n -> F0 n <> Frozen).
Proof.
  intros I N Hi Hd Hj. unfold narrowOne. pose proof (i_fl _ _ _ _ _ _ I) as VF.
  pose proof (i_mask _ _ _ _ _ _ I) as NM.
  rewrite (getN_view shape _ F) by assumption. cbn [bind]. unfold FmmProof.nbF.
  destruct (nb shape i d j) as [n|] eqn:E.
  2:{ exists s, m, F, T. split; [reflexivity|]. split; [exact I|]. split; [exact N|]. intros EF; split; [exact EF|].
      intros n En; congruence. }
  assert (Hn : n < sz) by (apply (nb_lt shape i d j n Hj Hi Hd E)).
  rewrite (proj2 (flg_eqb_neq (F n) Mask)) by (apply NM; exact Hn).
  rewrite (view_rd sz _ F n VF Hn). cbn [bind]. rewrite (view_rd sz _ F i VF Hi). cbn [bind].
  destruct (flg_eqb (F n) Frozen && flg_eqb (F i) Far)%bool eqn:C.
  - apply andb_true_iff in C. destruct C as [C1 C2]. apply flg_eqb_eq in C1. apply flg_eqb_eq in C2.
    destruct (push_step shape M s m F T i (updv (upd F i Narrow) T i) I Hi C2)
      as [f' [ds' [h' [k [q' [E1 [E2 [E3 [E4 [V1 [m' I']]]]]]]]]]].
    rewrite E1. cbn [bind].
    rewrite (update_view shape dX phi f' (ds s) (upd F i Narrow) T i V1 (i_ds _ _ _ _ _ _ I) Hi). cbn [bind].
    rewrite E2. cbn [bind]. rewrite E3. cbn [bind]. rewrite E4. cbn [bind].
    exists (mkst f' ds' q' h'), m', (upd F i Narrow), (upd T i (updv (upd F i Narrow) T i)).
    split; [reflexivity|]. split; [exact I'|].
    assert (Upd : updv (upd F i Narrow) T i = updv F0 T0 i).
    { rewrite <- (updv_NB lim F T i N NM Hi). apply updv_ext. intros d' j' n' Hd' Hj' E'.
      assert (Hn' : n' < sz) by (apply (nb_lt shape i d' j' n' Hj' Hi Hd' E')).
      pose proof (NM n' Hn'). unfold upd. destruct (Nat.eqb_spec n' i) as [->|Nn].
      - repeat split; try congruence; intros; congruence.
      - repeat split; try congruence; auto. }
    split; [|rewrite upd_same; discriminate].
    constructor.
    + intros k' Hk. unfold upd. destruct (Nat.eqb_spec k' i) as [->|Nk]; [|apply (nb_froz _ _ _ N); exact Hk].
      pose proof (nb_froz _ _ _ N i Hi) as B. split; intros X; [discriminate|]. apply B in X. congruence.
    + intros k' Hk Ek. unfold upd. destruct (Nat.eqb_spec k' i) as [->|Nk]; [|apply (nb_keep _ _ _ N); assumption].
      apply (nb_froz _ _ _ N i Hi) in Ek. congruence.
    + intros k' Hk Ek. destruct (Nat.eq_dec k' i) as [->|Nk].
      * split; [|split].
        -- destruct (F0_cases i) as [X|X]; [exact X|]. apply (nb_froz _ _ _ N i Hi) in X. congruence.
        -- exists d, j, n. repeat split; auto. apply (nb_froz _ _ _ N n Hn). exact C1.
        -- rewrite upd_same. exact Upd.
      * rewrite upd_other in Ek by assumption. rewrite upd_other by assumption. apply (nb_narrow _ _ _ N); assumption.
    + intros k' Hk L Ek. destruct (Nat.eq_dec k' i) as [->|Nk]; [rewrite upd_same in Ek; discriminate|].
      rewrite upd_other in Ek by assumption. apply (nb_done _ _ _ N); assumption.
    + intros k' Hk Ek. destruct (Nat.eq_dec k' i) as [->|Nk]; [rewrite upd_same in Ek; discriminate|].
      rewrite upd_other in Ek by assumption. rewrite upd_other by assumption. apply (nb_zero _ _ _ N); assumption.
    + intros k' Hk. unfold upd. destruct (Nat.eqb k' i); [congruence|]. apply (nb_nomask _ _ _ N); assumption.
  - exists s, m, F, T. split; [reflexivity|]. split; [exact I|]. split; [exact N|].
    intros Ef. split; [exact Ef|]. intros n' En'. injection En' as <-. intros X.
    apply (nb_froz _ _ _ N n Hn) in X. rewrite X, Ef in C. discriminate.
Qed.

Lemma narrowList_ok M i l : forall s m F T lim, Inv M s m F T -> NB lim F T -> i < sz ->
  (forall a d j, In (a, d, j) l -> a = i /\ d < nd /\ In j dirs) ->
  exists s' m' F' T', fold_res (fun '(a, d, j) s => narrowOne shape dX phi a d j s) l s = Ok s' /\
    Inv M s' m' F' T' /\ NB lim F' T' /\
    (F' i = Far -> F i = Far /\ forall d j n, In (i, d, j) l -> nb shape i d j = Some n -> F0 n <> Frozen).
Proof.
  induction l as [|[[a d] j] l IH]; intros s m F T lim I N Hi Hl; cbn [fold_res].
  - exists s, m, F, T. split; [reflexivity|]. split; [exact I|]. split; [exact N|]. intros X; split; [exact X|].
    intros d j n [].
  - destruct (Hl a d j (or_introl eq_refl)) as [-> [Hd Hj]].
    destruct (narrowOne_ok M i d j s m F T lim I N Hi Hd Hj) as [s1 [m1 [F1 [T1 [E1 [I1 [N1 G1]]]]]]].
    rewrite E1. cbn [bind].
    destruct (IH s1 m1 F1 T1 lim I1 N1 Hi) as [s2 [m2 [F2 [T2 [E2 [I2 [N2 G2]]]]]]].
    { intros; apply Hl; right; assumption. }
    exists s2, m2, F2, T2. split; [exact E2|]. split; [exact I2|]. split; [exact N2|].
    intros X. destruct (G2 X) as [X1 Y1]. destruct (G1 X1) as [X2 Y2]. split; [exact X2|].
    intros d' j' n [Eq|Hin]; [injection Eq as <- <-; apply Y2|apply Y1; exact Hin].
Qed.

Lemma initNarrow_ok M s m : Inv M s m F0 T0 -> exists s' m' F' T',
  initNarrow shape dX phi s = Ok s' /\ Inv M s' m' F' T' /\ NB (fun _ => True) F' T'.
Proof.
  intros I. unfold initNarrow.
  destruct (for_loop_S_inv (fun i s => exists m F T, Inv M s m F T /\ NB (fun k => k < i) F T) (size_ shape)
    (fun i s =>
    fi <- rd (fl s) i ;;
    if flg_eqb fi Far then
      fold_res (fun dim s => fold_res (fun j s => narrowOne shape dX phi i dim j s) dirs s) (dims shape) s
    else Ok s) 0 s) as [s' [E [m' [F' [T' [I' N']]]]]].
  - exists m, F0, T0. split; [exact I|]. constructor; auto.
    + intros i Hi. tauto.
    + intros i Hi X. destruct (F0_cases i); congruence.
    + intros; lia.
    + intros i Hi X. unfold F0, T0 in *. destruct (Reqb (phi i) 0), (borderb i); cbn in X; congruence.
    + intros i Hi. destruct (F0_cases i); congruence.
  - clear s m I. intros i s Hi [m [F [T [I N]]]]. assert (Hi' : i < sz) by (unfold sz; lia).
    rewrite (view_rd sz _ F i (i_fl _ _ _ _ _ _ I) Hi'). cbn [bind].
    destruct (flg_eqb (F i) Far) eqn:Ef.
    + apply flg_eqb_eq in Ef.
      assert (Eq : fold_res (fun dim s => fold_res (fun j s => narrowOne shape dX phi i dim j s) dirs s) (dims shape) s
        = fold_res (fun '(a, d, j) s => narrowOne shape dX phi a d j s) (trip shape i) s).
      { unfold trip. rewrite fold_res_flat. apply fold_res_ext. intros d t _. rewrite fold_res_map. reflexivity. }
      rewrite Eq.
      destruct (narrowList_ok M i (trip shape i) s m F T _ I N Hi') as [s1 [m1 [F1 [T1 [E1 [I1 [N1 G1]]]]]]].
      { intros a d j Hin. apply in_trip in Hin. exact Hin. }
      exists s1. split; [exact E1|]. exists m1, F1, T1. split; [exact I1|]. destruct N1.
      constructor; auto. intros k Hk Lk Fk [d [j [n [Hd [Hj [En X]]]]]].
      destruct (Nat.eq_dec k i) as [->|Nk].
      * destruct (G1 Fk) as [_ Y]. apply (Y d j n); auto. apply in_trip. auto.
      * apply (nb_done0 k Hk ltac:(lia) Fk). exists d, j, n. auto.
    + exists s. split; [reflexivity|]. exists m, F, T. split; [exact I|]. apply flg_eqb_neq in Ef. destruct N.
      constructor; auto. intros k Hk Lk Fk. destruct (Nat.eq_dec k i) as [->|Nk]; [congruence|].
      apply nb_done0; auto. lia.
  - exists s', m', F', T'. split; [exact E|]. split; [exact I'|]. destruct N'. constructor; auto.
Qed.

Lemma solve_spec (V : list (nat * nat * Z) -> (nat -> flg) -> (nat -> R) -> Prop) :
  (forall todo F T i, V todo F T -> i < sz -> F i = Narrow ->
    (forall k, k < sz -> F k = Narrow -> (Rabs (T i) <= Rabs (T k))%R) ->
    (forall a d j, In (a, d, j) todo -> F a = Frozen /\ Rabs (T a) = Rabs (T i)) ->
    V (todo ++ trip shape i) (upd F i Frozen) T) ->
  (forall a d j todo F T, V ((a, d, j) :: todo) F T -> a < sz -> d < nd -> In j dirs ->
    (forall n, nb shape a d j = Some n -> F n = Frozen) -> V todo F T) ->
  (forall a d j todo F T n, V ((a, d, j) :: todo) F T -> a < sz -> d < nd -> In j dirs ->
    nb shape a d j = Some n -> F n = Narrow \/ F n = Far -> updv F T n = 0%R -> V todo F T) ->
  (forall a d j todo F T n, V ((a, d, j) :: todo) F T -> a < sz -> d < nd -> In j dirs ->
    nb shape a d j = Some n -> F n = Narrow -> updv F T n <> 0%R -> V todo F (upd T n (updv F T n))) ->
  (forall a d j todo F T n, V ((a, d, j) :: todo) F T -> a < sz -> d < nd -> In j dirs ->
    nb shape a d j = Some n -> F n = Far -> updv F T n <> 0%R ->
    V todo (upd F n Narrow) (upd T n (updv F T n))) ->
  (forall F T, NB (fun _ => True) F T -> (exists i, i < sz /\ F0 i = Frozen) -> V [] F T) ->
  List.length shape <= 12 ->
  exists b D, distance shape dX phi = Ok b /\ view sz b D /\
    (((forall i, i < sz -> F0 i = Far) /\ (forall i, i < sz -> D i = 0%R)) \/
     ((exists i, i < sz /\ F0 i = Frozen) /\ exists F T, V [] F T /\
       (forall i, i < sz -> F i = Far \/ F i = Frozen) /\
       (forall i, i < sz -> D i = match F i with Frozen => T i | _ => maxDouble end))).
Proof.
  intros Hpop Hskip Hzero Hset Hpush Hinit Hdim. unfold distance.
  destruct (Nat.ltb_spec 12 (dim_ shape)) as [C|_]; [unfold dim_ in C; lia|].
  unfold march.
  destruct initZero_ok as [f1 [d1 [E1 [V1 W1]]]]. rewrite E1. cbn [bind].
  destruct (initCross_ok f1 d1 V1 W1) as [f2 [d2 [E2 [V2 W2]]]]. rewrite E2. cbn [bind].
  rewrite (countFlag_view shape Far f2 F0 V2). cbn [bind].
  assert (I0 : Inv (cnt Far F0) (mkst f2 d2 (balloc (size_ shape)) (heap_new (cnt Far F0))) bag_empty F0 T0).
  { constructor; cbn [fl ds hq pq]; auto.
    - apply (rep_init R Rltb 0%R).
    - intros i Hi. destruct (F0_cases i); congruence.
    - intros i Hi X. destruct (F0_cases i); congruence.
    - intros h a d X. cbn in X. discriminate. }
  destruct (initNarrow_ok _ _ _ I0) as [s3 [m3 [F3 [T3 [E3 [I3 N3]]]]]]. rewrite E3. cbn [bind].
  unfold solve. rewrite (countFlag_view shape Frozen (fl s3) F3 (i_fl _ _ _ _ _ _ I3)). cbn [bind].
  destruct (Nat.eqb_spec (cnt Frozen F3) 0) as [Z|NZ].
  - cbn [bind]. exists (ds s3), T3. split; [reflexivity|]. split; [apply (i_ds _ _ _ _ _ _ I3)|]. left.
    assert (A : forall i, i < sz -> F0 i = Far).
    { intros i Hi. destruct (F0_cases i) as [X|X]; [exact X|].
      apply (nb_froz _ _ _ N3 i Hi) in X. exfalso. unfold FmmProof.cnt in Z.
      assert (In i (filter (fun i => flg_eqb (F3 i) Frozen) (seq 0 (size_ shape)))).
      { apply filter_In. split; [apply in_seq; unfold sz in Hi; lia|]. rewrite X. reflexivity. }
      destruct (filter _ _); [contradiction|discriminate]. }
    split; [exact A|]. intros i Hi. destruct (F3 i) eqn:X.
    + apply (nb_zero _ _ _ N3 i Hi X).
    + destruct (nb_narrow _ _ _ N3 i Hi X) as [_ [[d [j [n [Hd [Hj [En Fn]]]]]] _]].
      rewrite A in Fn; [discriminate|]. apply (nb_lt shape i d j n Hj Hi Hd En).
    + apply (nb_froz _ _ _ N3 i Hi) in X. rewrite A in X by assumption. discriminate.
    + exfalso. apply (i_mask _ _ _ _ _ _ I3 i Hi X).
  - assert (Ex : exists i, i < sz /\ F0 i = Frozen).
    { unfold FmmProof.cnt in NZ. destruct (filter (fun i => flg_eqb (F3 i) Frozen) (seq 0 (size_ shape))) as [|i l] eqn:X;
        [cbn in NZ; lia|].
      assert (In i (filter (fun i => flg_eqb (F3 i) Frozen) (seq 0 (size_ shape)))) by (rewrite X; left; reflexivity).
      apply filter_In in H. destruct H as [H1 H2]. apply in_seq in H1. apply flg_eqb_eq in H2.
      exists i. split; [unfold sz; lia|]. apply (nb_froz _ _ _ N3 i); [unfold sz; lia|exact H2]. }
    destruct (mainLoop_ok shape dX phi V Hpop Hskip Hzero Hset Hpush _ (size_ shape) s3 m3 F3 T3 I3 (Hinit F3 T3 N3 Ex))
      as [s4 [m4 [F4 [T4 [E4 [I4 [V4 NN]]]]]]]; [lia|].
    rewrite E4. cbn [bind].
    destruct (for_loop_S_inv (fun i d => view sz d (fun k => if Nat.ltb k i then
          match F4 k with Frozen => T4 k | _ => maxDouble end else T4 k)) (size_ shape)
        (fun i d => f <- rd (fl s4) i ;; if flg_eqb f Frozen then Ok d else wr d i maxDouble) 0 (ds s4))
      as [d5 [E5 P5]].
    + apply (i_ds _ _ _ _ _ _ I4).
    + intros i d Hi P. assert (Hi' : i < sz) by (unfold sz; lia).
      rewrite (view_rd sz _ F4 i (i_fl _ _ _ _ _ _ I4) Hi'). cbn [bind].
      destruct (flg_eqb (F4 i) Frozen) eqn:Ef.
      * exists d. split; [reflexivity|]. apply flg_eqb_eq in Ef. split; [apply P|]. intros k Hk.
        rewrite (proj2 P k Hk). f_equal. destruct (Nat.eq_dec k i) as [->|N].
        -- rewrite Nat.ltb_irrefl, Ef. destruct (Nat.ltb i (S i)); reflexivity.
        -- destruct (Nat.ltb_spec k i), (Nat.ltb_spec k (S i)); try lia; reflexivity.
      * destruct (view_wr sz d _ i maxDouble P Hi') as [d' [Ew Vw]]. exists d'. split; [exact Ew|].
        apply flg_eqb_neq in Ef. split; [apply Vw|]. intros k Hk. rewrite (proj2 Vw k Hk). f_equal. unfold upd.
        destruct (Nat.eqb_spec k i) as [->|N].
        -- destruct (Nat.ltb_spec i (S i)); [|lia]. destruct (F4 i); congruence.
        -- destruct (Nat.ltb_spec k i), (Nat.ltb_spec k (S i)); try lia; reflexivity.
    + rewrite E5. cbn [bind ds]. eexists d5, (fun k => match F4 k with Frozen => T4 k | _ => maxDouble end).
      split; [reflexivity|]. split.
      * split; [apply P5|]. intros k Hk. rewrite (proj2 P5 k Hk). f_equal. cbn [Nat.add].
        destruct (Nat.ltb_spec k (size_ shape)); [reflexivity|unfold sz in Hk; lia].
      * right. split; [exact Ex|]. exists F4, T4. split; [exact V4|]. split; [|reflexivity].
        intros i Hi. pose proof (NN i Hi). pose proof (i_mask _ _ _ _ _ _ I4 i Hi). destruct (F4 i); tauto.
Qed.

End FMM2.
