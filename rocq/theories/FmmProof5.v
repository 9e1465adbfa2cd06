(** Fast marching on a grid with equal spacing: every accepted value solves the upwind equation. *)
From Coq Require Import FunctionalExtensionality.
From Verif Require Import Base HeapModel HeapSpec HeapProof FmmModel FmmGrid FmmProof FmmProof2 FmmProof3 FmmProof4.
Open Scope nat_scope.

Lemma Rmax_id x : Rmax x x = x.
Proof. apply Rmax_left. lra. Qed.

Lemma sumr_pos_ex {A} (f : A -> R) l : (0 < sumr f l)%R -> exists d, In d l /\ (0 < f d)%R.
Proof.
  induction l as [|d l IH]; cbn [sumr]; intros P; [lra|].
  destruct (Rlt_dec 0 (f d)) as [L|L]; [exists d; split; [left; reflexivity|exact L]|].
  destruct IH as [e [X Y]]; [lra|]. exists e. split; [right; exact X|exact Y].
Qed.

Section FMM5.
Variable shape : list nat.
Variable dX : list R.
Variable phi : nat -> R.
Let sz := size_ shape.
Let nd := List.length shape.
Notation updv := (updv shape dX phi).
Notation bestv := (bestv shape).
Notation F0 := (F0 shape dX phi).
Notation T0 := (T0 shape dX phi).
Notation cnt := (cnt shape).
Notation fnb := (fnb shape).
Notation good := (good shape phi).
Notation Gabs := (Gabs shape dX).
Notation act := (act shape).

Variable h : R.
Hypothesis HdXe : forall d, d < nd -> nth d dX 0%R = h.
Hypothesis Hphi : forall i, i < sz -> (phi i <= 0 \/ doubleEpsilon < phi i)%R.
Hypothesis Hbig : (h * (INR sz + 1) < maxDouble)%R.
Hypothesis HmaxP : (0 < h)%R.
Hypothesis Hnd : nd <= 2.

Lemma HdX : forall d, d < nd -> (0 < nth d dX 0 <= h)%R.
Proof. intros d Hd. rewrite HdXe by exact Hd. lra. Qed.

(** upwind difference of [r] against the frozen neighbours in dimension [d] *)
Definition pos (F : nat -> flg) (T : nat -> R) (i d : nat) (r : R) (j : Z) : R :=
  match nb shape i d j with
  | Some n => if flg_eqb (F n) Frozen then Rmax 0 (r - Rabs (T n)) else 0%R
  | None => 0%R
  end.
Definition Cd F T i d r : R := Rmax (pos F T i d r (-1)) (pos F T i d r 1).
Definition U F T i r : R := sumr (fun d => (idx2 dX d * Cd F T i d r ^ 2)%R) (dims shape).

Lemma pos_nonneg F T i d r j : (0 <= pos F T i d r j)%R.
Proof. unfold pos. destruct (nb shape i d j) as [n|]; [|lra]. destruct (flg_eqb (F n) Frozen); [apply Rmax_l|lra]. Qed.

Lemma Cd_char F T i d r : (0 <= Cd F T i d r)%R /\
  (forall n, fnb F i d n -> (r - Rabs (T n) <= Cd F T i d r)%R) /\
  (Cd F T i d r = 0%R \/ exists n, fnb F i d n /\ Cd F T i d r = (r - Rabs (T n))%R).
Proof.
  assert (P : forall j, In j dirs -> pos F T i d r j = 0%R \/ exists n, fnb F i d n /\ pos F T i d r j = (r - Rabs (T n))%R).
  { intros j Hj. unfold pos. destruct (nb shape i d j) as [n|] eqn:E; [|auto].
    destruct (flg_eqb (F n) Frozen) eqn:Ef; [|auto]. apply flg_eqb_eq in Ef.
    unfold Rmax. destruct (Rle_dec 0 (r - Rabs (T n))); [right|left; reflexivity].
    exists n. split; [exists j; auto|reflexivity]. }
  unfold Cd. split; [|split].
  - apply Rle_trans with (pos F T i d r (-1)); [apply pos_nonneg|apply Rmax_l].
  - intros n [j [Hj [En Fn]]].
    assert (X : (r - Rabs (T n) <= pos F T i d r j)%R).
    { unfold pos. rewrite En, Fn. cbn [flg_eqb]. apply Rmax_r. }
    cbn in Hj. destruct Hj as [<-|[<-|[]]]; [eapply Rle_trans; [exact X|apply Rmax_l]|eapply Rle_trans; [exact X|apply Rmax_r]].
  - unfold Rmax. destruct (Rle_dec _ _); [apply (P 1%Z)|apply (P (-1)%Z)]; cbn; auto.
Qed.

Lemma Cd_le F T F' T' i d r r' :
  (forall n, fnb F i d n -> (r - Rabs (T n) <= 0)%R \/
      exists n', fnb F' i d n' /\ (r - Rabs (T n) <= r' - Rabs (T' n'))%R) ->
  (Cd F T i d r <= Cd F' T' i d r')%R.
Proof.
  intros H. destruct (Cd_char F T i d r) as [_ [_ A]]. destruct (Cd_char F' T' i d r') as [B1 [B2 _]].
  destruct A as [->|[n [Hn ->]]]; [exact B1|]. destruct (H n Hn) as [X|[n' [X Y]]]; [lra|].
  specialize (B2 n' X). lra.
Qed.

Lemma U_le F T F' T' i r r' :
  (forall d n, d < nd -> fnb F i d n -> (r - Rabs (T n) <= 0)%R \/
      exists n', fnb F' i d n' /\ (r - Rabs (T n) <= r' - Rabs (T' n'))%R) ->
  (U F T i r <= U F' T' i r')%R.
Proof.
  intros H. apply sumr_le. intros d Hd. apply in_dims in Hd.
  apply Rmult_le_compat_l; [apply Rlt_le, (idx2_pos shape dX h HdX d Hd)|].
  pose proof (Cd_le F T F' T' i d r r' (fun n => H d n Hd)).
  destruct (Cd_char F T i d r) as [A _]. nra.
Qed.

Lemma U_mono F T i r r' : (r <= r')%R -> (U F T i r <= U F T i r')%R.
Proof. intros H. apply U_le. intros d n Hd Hn. right. exists n. split; [exact Hn|lra]. Qed.

(** [U] strictly grows once positive *)
Lemma U_strict F T i r r' : (r < r')%R -> (0 < U F T i r)%R -> (U F T i r < U F T i r')%R.
Proof.
  intros H P. unfold U in *.
  assert (E : exists d, In d (dims shape) /\ (0 < Cd F T i d r)%R).
  { destruct (sumr_pos_ex _ _ P) as [d [Hd Pd]]. exists d. split; [exact Hd|].
    destruct (Cd_char F T i d r) as [[A|A] _]; [exact A|]. rewrite <- A in Pd.
    replace (idx2 dX d * 0 ^ 2)%R with 0%R in Pd by ring. lra. }
  destruct E as [d [Hd Pd]].
  assert (Ge : forall e, In e (dims shape) ->
    (idx2 dX e * Cd F T i e r ^ 2 <= idx2 dX e * Cd F T i e r' ^ 2)%R).
  { intros e He. apply in_dims in He. apply Rmult_le_compat_l; [apply Rlt_le, (idx2_pos shape dX h HdX e He)|].
    assert (Cd F T i e r <= Cd F T i e r')%R.
    { apply Cd_le. intros n Hn. right. exists n. split; [exact Hn|lra]. }
    destruct (Cd_char F T i e r) as [A _]. nra. }
  assert (Gd : (idx2 dX d * Cd F T i d r ^ 2 < idx2 dX d * Cd F T i d r' ^ 2)%R).
  { apply Rmult_lt_compat_l; [apply in_dims in Hd; apply (idx2_pos shape dX h HdX d Hd)|].
    assert (Cd F T i d r < Cd F T i d r')%R; [|nra].
    destruct (Cd_char F T i d r) as [_ [_ [A|[n [Hn A]]]]]; [lra|].
    destruct (Cd_char F T i d r') as [_ [B _]]. specialize (B n Hn). lra. }
  clear P. revert Hd Ge. generalize (dims shape). induction l as [|e l IH]; intros Hin Ge; [destruct Hin|].
  cbn [sumr]. destruct Hin as [->|Hin].
  - assert (sumr (fun d => (idx2 dX d * Cd F T i d r ^ 2)%R) l <= sumr (fun d => (idx2 dX d * Cd F T i d r' ^ 2)%R) l)%R.
    { apply sumr_le. intros; apply Ge; right; assumption. }
    lra.
  - specialize (Ge e (or_introl eq_refl)) as G1.
    specialize (IH Hin (fun x Hx => Ge x (or_intror Hx))). lra.
Qed.

(** agreement with the quadratic of the update when the root is upwind *)
Lemma U_Gabs F T i r : good F T i ->
  (forall d, d < nd -> act F T i d = true -> (Rabs (bestv F T i d) <= r)%R) -> U F T i r = Gabs F T i r.
Proof.
  intros G H. unfold U, FmmProof3.Gabs. apply sumr_ext. intros d Hd. apply in_dims in Hd.
  destruct (Cd_char F T i d r) as [A [B C]].
  destruct (act F T i d) eqn:Ad.
  - destruct (act_spec shape phi F T i d G Hd Ad) as [n [X1 [X2 X3]]]. specialize (H d Hd Ad). rewrite X2 in *.
    assert (E : Cd F T i d r = (r - Rabs (T n))%R); [|rewrite E; reflexivity].
    specialize (B n X1). destruct C as [C|[n' [Y1 Y2]]]; [lra|]. specialize (X3 n' Y1). lra.
  - pose proof (act_false shape phi F T i d G Hd Ad) as N.
    destruct C as [->|[n [X _]]]; [ring|exfalso; apply (N n X)].
Qed.

(** frozen neighbours differ by at most one spacing: the update is an upwind root *)
Definition near (F : nat -> flg) (T : nat -> R) (i : nat) : Prop :=
  forall d e a b, d < nd -> e < nd -> fnb F i d a -> fnb F i e b -> (Rabs (T a) <= Rabs (T b) + h)%R.

Lemma idx2_h d : d < nd -> idx2 dX d = (1 / h / h)%R.
Proof. intros Hd. unfold idx2. rewrite HdXe by exact Hd. reflexivity. Qed.

Lemma upd_upwind F T i : good F T i -> near F T i ->
  updv F T i <> 0%R /\ U F T i (Rabs (updv F T i)) = 1%R /\ sgn_ok (phi i) (updv F T i).
Proof.
  intros G K.
  assert (Kb : forall d e, d < nd -> e < nd -> act F T i d = true -> act F T i e = true ->
     (Rabs (bestv F T i d) <= Rabs (bestv F T i e) + h)%R).
  { intros d e Hd He Ad Ae. destruct (act_spec shape phi F T i d G Hd Ad) as [a [A1 [-> _]]].
    destruct (act_spec shape phi F T i e G He Ae) as [b [B1 [-> _]]]. apply (K d e a b); assumption. }
  destruct (upd_abs shape dX phi h HdX F T i G) as [[_ Z]|[Nz [S [_ [E M]]]]].
  - exfalso. destruct (Gabs_small shape dX phi h HdX Hnd F T i G) as [r Hr]; [|specialize (Z r); lra].
    intros A0 A1 H1. pose proof (Kb 0 1 ltac:(lia) H1 A0 A1). pose proof (Kb 1 0 H1 ltac:(lia) A1 A0).
    rewrite !HdXe by lia. nra.
  - split; [exact Nz|]. split; [|exact S]. rewrite U_Gabs; [exact E|exact G|].
    intros d Hd Ad. apply M. unfold FmmProof3.Gabs.
    destruct (dims_cases shape dX h HdX Hnd) as [D|[[D D1]|[D D1]]]; rewrite D; cbn [sumr].
    + assert (In d (dims shape)) by (apply in_dims; exact Hd). rewrite D in H. destruct H.
    + assert (d = 0).
      { assert (In d (dims shape)) by (apply in_dims; exact Hd). rewrite D in H. destruct H as [<-|[]]. reflexivity. }
      subst d. rewrite Ad. replace (Rabs (bestv F T i 0) - Rabs (bestv F T i 0))%R with 0%R by ring. lra.
    + assert (d = 0 \/ d = 1) as Dc.
      { assert (In d (dims shape)) by (apply in_dims; exact Hd). rewrite D in H. destruct H as [<-|[<-|[]]]; auto. }
      fold nd in D1. rewrite (idx2_h 0), (idx2_h 1) by lia.
      assert (Q : forall y, (- h <= y <= h)%R -> (1 / h / h * y ^ 2 <= 1)%R).
      { intros y Hy. replace (1 / h / h * y ^ 2)%R with ((y / h) ^ 2)%R by (field; lra).
        assert (-1 <= y / h <= 1)%R; [|nra].
        split; [apply Rmult_le_reg_r with h; [lra|]|apply Rmult_le_reg_r with h; [lra|]];
          replace (y / h * h)%R with y by (field; lra); lra. }
      destruct Dc as [-> | ->]; rewrite Ad.
      * replace (Rabs (bestv F T i 0) - Rabs (bestv F T i 0))%R with 0%R by ring.
        destruct (act F T i 1) eqn:A1; [|lra].
        pose proof (Kb 0 1 ltac:(lia) D1 Ad A1). pose proof (Kb 1 0 D1 ltac:(lia) A1 Ad).
        pose proof (Q (Rabs (bestv F T i 0) - Rabs (bestv F T i 1))%R ltac:(lra)). lra.
      * replace (Rabs (bestv F T i 1) - Rabs (bestv F T i 1))%R with 0%R by ring.
        destruct (act F T i 0) eqn:A0; [|lra].
        pose proof (Kb 0 1 ltac:(lia) D1 A0 Ad). pose proof (Kb 1 0 D1 ltac:(lia) Ad A0).
        pose proof (Q (Rabs (bestv F T i 1) - Rabs (bestv F T i 0))%R ltac:(lra)). lra.
Qed.

Definition pend (todo : list (nat * nat * Z)) (n : nat) : bool :=
  existsb (fun '(a, d, j) => match nb shape a d j with Some k => Nat.eqb k n | None => false end) todo.
Lemma pend_true todo n : pend todo n = true <-> exists a d j, In (a, d, j) todo /\ nb shape a d j = Some n.
Proof.
  unfold pend. rewrite existsb_exists. split.
  - intros [[[a d] j] [Hin E]]. destruct (nb shape a d j) as [k|] eqn:En; [|discriminate].
    apply Nat.eqb_eq in E. subst. exists a, d, j. auto.
  - intros [a [d [j [Hin E]]]]. exists (a, d, j). split; [exact Hin|]. rewrite E. apply Nat.eqb_refl.
Qed.

Lemma pend_cons a d j todo n : pend ((a, d, j) :: todo) n =
  ((match nb shape a d j with Some k => Nat.eqb k n | None => false end) || pend todo n)%bool.
Proof. reflexivity. Qed.

Record VG (todo : list (nat * nat * Z)) (F : nat -> flg) (T : nat -> R) : Prop := {
  g_v1 : V1 shape dX phi h todo F T;
  g_mono : forall a k, a < sz -> k < sz -> F0 a <> Frozen -> F a = Frozen -> F k = Narrow -> (Rabs (T a) <= Rabs (T k))%R;
  g_mono2 : forall a b d j, a < sz -> F0 a <> Frozen -> F a = Frozen -> In (b, d, j) todo -> (Rabs (T a) <= Rabs (T b))%R;
  g_k1 : forall n, n < sz -> F n <> Frozen -> near F T n;
  g_k2 : forall n b d j, n < sz -> b < sz -> d < nd -> In j dirs -> F n = Narrow -> F b = Frozen ->
     nb shape b d j = Some n -> ~ In (b, d, j) todo -> (Rabs (T n) <= Rabs (T b) + h)%R;
  g_ge : forall n, n < sz -> F n = Narrow -> (1 <= U F T n (Rabs (T n)))%R;
  g_eq : forall n, n < sz -> F n = Narrow -> pend todo n = false -> U F T n (Rabs (T n)) = 1%R;
  g_pend : forall a d j n, In (a, d, j) todo -> nb shape a d j = Some n -> n < sz -> F n <> Frozen ->
     (U F T n (Rabs (T a)) <= 1)%R;
  g_fin : forall a, a < sz -> F0 a <> Frozen -> F a = Frozen -> U F T a (Rabs (T a)) = 1%R;
  g_t0 : forall a, a < sz -> F0 a = Frozen -> (Rabs (T a) < h)%R;
  g_todo : forall a d j, In (a, d, j) todo -> d < nd /\ In j dirs
}.

Lemma fnb_upd F i a n d : fnb (upd F i Frozen) n d a -> fnb F n d a \/ (a = i /\ fnb (upd F i Frozen) n d i).
Proof.
  intros H. pose proof H as [j [Hj [E Fa]]]. destruct (Nat.eq_dec a i) as [->|N]; [right; auto|left].
  rewrite upd_other in Fa by assumption. exists j. auto.
Qed.
Lemma fnb_upd_old F i a n d : fnb F n d a -> fnb (upd F i Frozen) n d a.
Proof. intros [j [Hj [E Fa]]]. exists j. split; [exact Hj|]. split; [exact E|]. unfold upd. destruct (Nat.eqb a i); auto. Qed.
Lemma fnb_sym F n d a : n < sz -> d < nd -> fnb F n d a ->
  a < sz /\ F a = Frozen /\ exists j, In j dirs /\ nb shape a d j = Some n.
Proof.
  intros Hn Hd [j [Hj [E Fa]]]. destruct (nb_in shape n d j a (dirs_pm j Hj) Hn Hd E) as [A [_ B]].
  split; [exact A|]. split; [exact Fa|]. exists (- j)%Z. split; [apply dirs_opp; exact Hj|exact B].
Qed.

Lemma VG_pop todo F T i : VG todo F T -> i < sz -> F i = Narrow ->
  (forall k, k < sz -> F k = Narrow -> (Rabs (T i) <= Rabs (T k))%R) ->
  (forall a d j, In (a, d, j) todo -> F a = Frozen /\ Rabs (T a) = Rabs (T i)) ->
  VG (todo ++ trip shape i) (upd F i Frozen) T.
Proof.
  intros W Hi Fi Min Eq. pose proof (g_v1 _ _ _ W) as W1.
  assert (Nfi : F0 i <> Frozen).
  { intros X. destruct (v_init _ _ _ _ _ _ _ W1 i Hi X). congruence. }
  assert (Eq' : forall a d j, In (a, d, j) (todo ++ trip shape i) -> Rabs (T a) = Rabs (T i)).
  { intros a d j H. apply in_app_or in H. destruct H as [H|H]; [apply (Eq a d j H)|].
    apply in_trip in H. destruct H as [-> _]. reflexivity. }
  assert (FarU : forall n, n < sz -> F n = Far -> forall d b, d < nd -> fnb F n d b -> Rabs (T b) = Rabs (T i)).
  { intros n Hn Fn d b Hd Hb. destruct (fnb_sym F n d b Hn Hd Hb) as [Hbs [Fb [j [Hj En]]]].
    apply (Eq b d j). apply (v_reach _ _ _ _ _ _ _ W1 b d j n); assumption. }
  assert (NotMask : forall n, n < sz -> F n <> Frozen -> F n = Far \/ F n = Narrow).
  { intros n Hn Nn. pose proof (v_mask _ _ _ _ _ _ _ W1 n Hn). destruct (F n); tauto. }
  (* U at level |T i| before the pop *)
  assert (Lev : forall n, n < sz -> F n <> Frozen -> n <> i -> (U F T n (Rabs (T i)) <= 1)%R).
  { intros n Hn Nn Ni. destruct (NotMask n Hn Nn) as [Fn|Fn].
    - assert ((U F T n (Rabs (T i)) <= U (fun _ => Far) T n 0)%R).
      { apply U_le. intros d b Hd Hb. left. rewrite (FarU n Hn Fn d b Hd Hb). lra. }
      assert (E0 : U (fun _ => Far) T n 0 = 0%R).
      { unfold U. rewrite (sumr_ext _ (fun _ => 0%R)).
        - clear. induction (dims shape); cbn; lra.
        - intros d Hd. unfold Cd, pos. cbn [flg_eqb].
          destruct (nb shape n d (-1)), (nb shape n d 1); rewrite Rmax_id; ring. }
      lra.
    - destruct (pend todo n) eqn:Pn.
      + apply pend_true in Pn. destruct Pn as [a [d [j [Hin En]]]].
        destruct (Eq a d j Hin) as [_ <-]. apply (g_pend _ _ _ W a d j n); assumption.
      + rewrite <- (g_eq _ _ _ W n Hn Fn Pn). apply U_mono. apply Min; assumption. }
  assert (UpdEq : forall n r, (r <= Rabs (T i))%R -> U (upd F i Frozen) T n r = U F T n r).
  { intros n r Hr. apply Rle_antisym; apply U_le; intros d b Hd Hb.
    - destruct (fnb_upd F i b n d Hb) as [X|[-> _]]; [right; exists b; split; [exact X|lra]|left; lra].
    - right. exists b. split; [apply fnb_upd_old; exact Hb|lra]. }
  constructor.
  - apply V1_pop; auto.
  - intros a k Ha Hk Na Fa Fk. destruct (Nat.eq_dec k i) as [->|Nk]; [rewrite upd_same in Fk; discriminate|].
    rewrite upd_other in Fk by assumption. destruct (Nat.eq_dec a i) as [->|Nai]; [apply Min; assumption|].
    rewrite upd_other in Fa by assumption. apply (g_mono _ _ _ W); assumption.
  - intros a b d j Ha Na Fa Hin. rewrite (Eq' b d j Hin).
    destruct (Nat.eq_dec a i) as [->|Nai]; [lra|]. rewrite upd_other in Fa by assumption.
    apply (g_mono _ _ _ W); assumption.
  - intros n Hn Nn. destruct (Nat.eq_dec n i) as [->|Ni]; [rewrite upd_same in Nn; congruence|].
    rewrite upd_other in Nn by assumption.
    assert (Both : forall d b, d < nd -> fnb F n d b ->
      (Rabs (T i) <= Rabs (T b) + h)%R /\ (Rabs (T b) <= Rabs (T i) + h)%R).
    { intros d b Hd Hb. destruct (fnb_sym F n d b Hn Hd Hb) as [Hbs [Fb [j [Hj En]]]].
      split.
      - destruct (NotMask n Hn Nn) as [Fn|Fn]; [rewrite (FarU n Hn Fn d b Hd Hb); lra|].
        assert (Dc : {In (b, d, j) todo} + {~ In (b, d, j) todo}).
        { apply in_dec. intros [[x y] z] [[x' y'] z']. decide equality; [apply Z.eq_dec|]. decide equality; apply Nat.eq_dec. }
        destruct Dc as [X|X]; [destruct (Eq b d j X) as [_ ->]; lra|].
        pose proof (g_k2 _ _ _ W n b d j Hn Hbs Hd Hj Fn Fb En X). pose proof (Min n Hn Fn). lra.
      - destruct (F0 b) eqn:Eb.
        + pose proof (g_mono _ _ _ W b i Hbs Hi ltac:(congruence) Fb Fi). lra.
        + pose proof (g_mono _ _ _ W b i Hbs Hi ltac:(congruence) Fb Fi). lra.
        + pose proof (g_t0 _ _ _ W b Hbs Eb). pose proof (Rabs_pos (T i)). lra.
        + pose proof (g_mono _ _ _ W b i Hbs Hi ltac:(congruence) Fb Fi). lra. }
    intros d e a b Hd He Ha Hb. apply fnb_upd in Ha. apply fnb_upd in Hb.
    destruct Ha as [Ha|[-> _]], Hb as [Hb|[-> _]].
    + apply (g_k1 _ _ _ W n Hn Nn d e); assumption.
    + apply (Both d a Hd Ha).
    + apply (Both e b He Hb).
    + lra.
  - intros n b d j Hn Hb Hd Hj Fn Fb En Nin.
    destruct (Nat.eq_dec n i) as [->|Ni]; [rewrite upd_same in Fn; discriminate|]. rewrite upd_other in Fn by assumption.
    destruct (Nat.eq_dec b i) as [->|Nb].
    + exfalso. apply Nin. apply in_or_app. right. apply in_trip. auto.
    + rewrite upd_other in Fb by assumption. apply (g_k2 _ _ _ W n b d j); auto.
      intros X. apply Nin. apply in_or_app. left. exact X.
  - intros n Hn Fn. destruct (Nat.eq_dec n i) as [->|Ni]; [rewrite upd_same in Fn; discriminate|].
    rewrite upd_other in Fn by assumption. eapply Rle_trans; [apply (g_ge _ _ _ W n Hn Fn)|].
    apply U_le. intros d b Hd Hb. right. exists b. split; [apply fnb_upd_old; exact Hb|lra].
  - intros n Hn Fn Pn. destruct (Nat.eq_dec n i) as [->|Ni]; [rewrite upd_same in Fn; discriminate|].
    rewrite upd_other in Fn by assumption.
    assert (Pn' : pend todo n = false).
    { destruct (pend todo n) eqn:X; [|reflexivity]. apply pend_true in X. destruct X as [a [d [j [X1 X2]]]].
      rewrite (proj2 (pend_true (todo ++ trip shape i) n)) in Pn; [discriminate|].
      exists a, d, j. split; [apply in_or_app; left; exact X1|exact X2]. }
    rewrite <- (g_eq _ _ _ W n Hn Fn Pn'). apply Rle_antisym; apply U_le; intros d b Hd Hb.
    + destruct (fnb_upd F i b n d Hb) as [X|[-> X]]; [right; exists b; split; [exact X|lra]|].
      exfalso. destruct (fnb_sym _ n d i Hn Hd X) as [_ [_ [j [Hj En]]]].
      rewrite (proj2 (pend_true (todo ++ trip shape i) n)) in Pn; [discriminate|].
      exists i, d, j. split; [apply in_or_app; right; apply in_trip; auto|exact En].
    + right. exists b. split; [apply fnb_upd_old; exact Hb|lra].
  - intros a d j n Hin En Hn Nn. rewrite (Eq' a d j Hin).
    destruct (Nat.eq_dec n i) as [->|Ni]; [rewrite upd_same in Nn; congruence|].
    rewrite upd_other in Nn by assumption. rewrite UpdEq by lra. apply Lev; assumption.
  - intros a Ha Na Fa. destruct (Nat.eq_dec a i) as [->|Nai].
    + rewrite UpdEq by lra. destruct (pend todo i) eqn:Pi; [|apply (g_eq _ _ _ W); assumption].
      apply Rle_antisym; [|apply (g_ge _ _ _ W); assumption].
      apply pend_true in Pi. destruct Pi as [b [d [j [Hin En]]]].
      destruct (Eq b d j Hin) as [_ E]. rewrite <- E. apply (g_pend _ _ _ W b d j i); auto. congruence.
    + rewrite upd_other in Fa by assumption. rewrite UpdEq; [apply (g_fin _ _ _ W); assumption|].
      apply (g_mono _ _ _ W); assumption.
  - apply (g_t0 _ _ _ W).
  - intros a d j Hin. apply in_app_or in Hin. destruct Hin as [Hin|Hin]; [apply (g_todo _ _ _ W a d j Hin)|].
    apply in_trip in Hin. tauto.
Qed.

Lemma VG_skip a d j todo F T : VG ((a, d, j) :: todo) F T ->
  (forall n, nb shape a d j = Some n -> F n = Frozen) -> VG todo F T.
Proof.
  intros W H. destruct W as [w1 w2 w3 w4 w5 w6 w7 w8 w9 w10 w11]. constructor; auto.
  - apply (V1_drop shape dX phi h a d j); [assumption|]. intros n En. rewrite (H n En). discriminate.
  - intros x b e k Hx Nx Fx Hin. apply (w3 x b e k); auto. right; exact Hin.
  - intros n b e k Hn Hb He Hk Fn Fb En Nin. apply (w5 n b e k); auto. intros [X|X]; [|exact (Nin X)].
    injection X as <- <- <-. rewrite (H n En) in Fn. discriminate.
  - intros n Hn Fn Pn. apply w7; auto. rewrite pend_cons, Pn, orb_false_r.
    destruct (nb shape a d j) as [k|] eqn:E; [|reflexivity]. apply Nat.eqb_neq. intros ->.
    rewrite (H n eq_refl) in Fn. discriminate.
  - intros x e k n Hin. apply (w8 x e k n). right; exact Hin.
  - intros x e k Hin. apply (w11 x e k). right; exact Hin.
Qed.

Lemma VG_write a d j todo F T n : VG ((a, d, j) :: todo) F T -> a < sz -> d < nd -> In j dirs ->
  nb shape a d j = Some n -> F n = Narrow \/ F n = Far ->
  updv F T n <> 0%R /\ VG todo (upd F n Narrow) (upd T n (updv F T n)).
Proof.
  intros W Ha Hd Hj En Fn. pose proof (g_v1 _ _ _ W) as W1.
  assert (Hn : n < sz) by (apply (nb_lt shape a d j n Hj Ha Hd En)).
  destruct (v_eq _ _ _ _ _ _ _ W1 a d j a d j (or_introl eq_refl) (or_introl eq_refl)) as [_ [_ [Fa _]]].
  assert (Nf : F n <> Frozen) by (destruct Fn; congruence).
  assert (G : good F T n) by (apply (V1_good shape dX phi h Hphi Hbig HmaxP _ _ _ n d j a W1); auto).
  destruct (upd_upwind F T n G (g_k1 _ _ _ W n Hn Nf)) as [Nz [Ux Sx]].
  split; [exact Nz|]. set (x := updv F T n) in *.
  assert (NT : forall k, F k = Frozen -> k <> n) by (intros k Fk ->; contradiction).
  assert (Fb : forall k e b, fnb (upd F n Narrow) k e b <-> fnb F k e b).
  { intros k e b. split; intros [i [Hi [E X]]]; exists i; (split; [exact Hi|]); (split; [exact E|]).
    - destruct (Nat.eq_dec b n) as [->|N]; [rewrite upd_same in X; discriminate|]. rewrite upd_other in X by assumption. exact X.
    - rewrite upd_other by (apply NT; exact X). exact X. }
  assert (Fv : forall k e b, fnb F k e b -> upd T n x b = T b).
  { intros k e b [i [_ [_ X]]]. apply upd_other. apply NT; exact X. }
  assert (Ueq : forall k r, U (upd F n Narrow) (upd T n x) k r = U F T k r).
  { intros k r. apply Rle_antisym; apply U_le; intros e b He Hb; right; exists b.
    - apply Fb in Hb. split; [exact Hb|]. rewrite (Fv k e b Hb). lra.
    - split; [apply Fb; exact Hb|]. rewrite (Fv k e b Hb). lra. }
  assert (Lx : (Rabs (T a) <= Rabs x)%R).
  { destruct (Rle_dec (Rabs (T a)) (Rabs x)) as [L|L]; [exact L|exfalso].
    pose proof (g_pend _ _ _ W a d j n (or_introl eq_refl) En Hn Nf).
    pose proof (U_strict F T n (Rabs x) (Rabs (T a)) ltac:(lra) ltac:(lra)). lra. }
  assert (Pd : forall k, k <> n -> pend todo k = false -> pend ((a, d, j) :: todo) k = false).
  { intros k Nk Pk. rewrite pend_cons, En, Pk, orb_false_r. apply Nat.eqb_neq. congruence. }
  constructor.
  - apply (V1_write shape dX phi h HdX Hphi Hbig HmaxP a d j todo F T n); auto.
  - intros b k Hb Hk Nb Fb' Fk. assert (Nbn : b <> n) by (intros ->; rewrite upd_same in Fb'; discriminate).
    rewrite upd_other in Fb' by assumption. rewrite (upd_other T _ b) by assumption.
    destruct (Nat.eq_dec k n) as [->|Nk].
    + rewrite upd_same. pose proof (g_mono2 _ _ _ W b a d j Hb Nb Fb' (or_introl eq_refl)). lra.
    + rewrite upd_other in Fk by assumption. rewrite upd_other by assumption. apply (g_mono _ _ _ W); assumption.
  - intros b c e k Hb Nb Fb' Hin. assert (Nbn : b <> n) by (intros ->; rewrite upd_same in Fb'; discriminate).
    rewrite upd_other in Fb' by assumption.
    destruct (v_eq _ _ _ _ _ _ _ W1 c e k c e k (or_intror Hin) (or_intror Hin)) as [_ [_ [Fc _]]].
    rewrite !upd_other by auto. apply (g_mono2 _ _ _ W b c e k); auto. right; exact Hin.
  - intros k Hk Nk. assert (Nk' : F k <> Frozen).
    { destruct (Nat.eq_dec k n) as [->|N]; [exact Nf|]. rewrite upd_other in Nk by assumption. exact Nk. }
    intros e e' b c He He' Hb Hc. apply Fb in Hb. apply Fb in Hc. rewrite (Fv k e b Hb), (Fv k e' c Hc).
    apply (g_k1 _ _ _ W k Hk Nk' e e'); assumption.
  - intros k b e i Hk Hb He Hi Fk Fb' Ek Nin.
    assert (Nbn : b <> n) by (intros ->; rewrite upd_same in Fb'; discriminate).
    rewrite upd_other in Fb' by assumption. rewrite (upd_other T _ b) by assumption.
    destruct (Nat.eq_dec k n) as [->|Nk].
    + rewrite upd_same. assert (Hfb : fnb F n e b).
      { exists (- i)%Z. split; [apply dirs_opp; exact Hi|]. split; [|exact Fb'].
        apply (nb_in shape b e i n (dirs_pm i Hi) Hb He Ek). }
      pose proof (upd_bound shape dX phi h HdX F T n e b G He Hfb) as B. rewrite HdXe in B by exact He. exact B.
    + rewrite upd_other in Fk by assumption. rewrite upd_other by assumption.
      apply (g_k2 _ _ _ W k b e i); auto. intros [X|X]; [|exact (Nin X)]. injection X as <- <- <-. congruence.
  - intros k Hk Fk. rewrite Ueq. destruct (Nat.eq_dec k n) as [->|Nk]; [rewrite upd_same; lra|].
    rewrite upd_other in Fk by assumption. rewrite upd_other by assumption. apply (g_ge _ _ _ W); assumption.
  - intros k Hk Fk Pk. rewrite Ueq. destruct (Nat.eq_dec k n) as [->|Nk]; [rewrite upd_same; exact Ux|].
    rewrite upd_other in Fk by assumption. rewrite upd_other by assumption. apply (g_eq _ _ _ W); auto.
  - intros b e i k Hin Ek Hk Nk. rewrite Ueq.
    destruct (v_eq _ _ _ _ _ _ _ W1 b e i b e i (or_intror Hin) (or_intror Hin)) as [_ [_ [Fc _]]].
    rewrite upd_other by auto. apply (g_pend _ _ _ W b e i k); [right; exact Hin|exact Ek|exact Hk|].
    destruct (Nat.eq_dec k n) as [->|N]; [exact Nf|]. rewrite upd_other in Nk by assumption. exact Nk.
  - intros b Hb Nb Fb'. assert (Nbn : b <> n) by (intros ->; rewrite upd_same in Fb'; discriminate).
    rewrite upd_other in Fb' by assumption. rewrite Ueq, upd_other by assumption. apply (g_fin _ _ _ W); assumption.
  - intros b Hb Fb'. destruct (v_init _ _ _ _ _ _ _ W1 b Hb Fb') as [X _].
    rewrite upd_other by auto. apply (g_t0 _ _ _ W); assumption.
  - intros b e i Hin. apply (g_todo _ _ _ W b e i). right; exact Hin.
Qed.

Lemma VG_init F T : NB shape dX phi (fun _ => True) F T -> (exists i, i < sz /\ F0 i = Frozen) -> VG [] F T.
Proof.
  intros N Ex. pose proof (nb_nomask _ _ _ _ _ _ N) as NM. pose proof (nb_froz _ _ _ _ _ _ N) as Fr.
  pose proof (nb_keep _ _ _ _ _ _ N) as Kp.
  assert (T0h : forall a, a < sz -> F0 a = Frozen -> (Rabs (T a) < h)%R).
  { intros a Ha Fa. rewrite (Kp a Ha Fa). destruct (T0_abs shape dX phi h HdX Hbig HmaxP Hnd a Fa) as [_ [->|[d [Hd L]]]]; [lra|].
    rewrite HdXe in L by exact Hd. lra. }
  assert (K1 : forall n, n < sz -> F n <> Frozen -> near F T n).
  { intros n Hn Nn d e a b Hd He Ha Hb.
    destruct (fnb_sym F n d a Hn Hd Ha) as [Hsa [Fa _]].
    pose proof (T0h a Hsa (proj1 (Fr a Hsa) Fa)). pose proof (Rabs_pos (T b)). lra. }
  assert (Up : forall n, n < sz -> F n = Narrow -> U F T n (Rabs (T n)) = 1%R).
  { intros n Hn Fn. destruct (NB_good shape dX phi h HdX Hphi Hbig HmaxP Hnd F T n N NM Hn Fn) as [G [_ E]].
    rewrite E. apply upd_upwind; [exact G|]. apply K1; [exact Hn|congruence]. }
  constructor.
  - apply (V1_init shape dX phi h HdX Hphi Hbig HmaxP Hnd F T N NM Ex).
  - intros a k Ha Hk Na Fa. exfalso. apply Na, (Fr a Ha). exact Fa.
  - intros a b d j Ha Na Fa []. 
  - exact K1.
  - intros n b d j Hn Hb Hd Hj Fn Fb En _.
    destruct (NB_good shape dX phi h HdX Hphi Hbig HmaxP Hnd F T n N NM Hn Fn) as [G [_ E]].
    assert (Hfb : fnb F n d b).
    { exists (- j)%Z. split; [apply dirs_opp; exact Hj|]. split; [|exact Fb].
      apply (nb_in shape b d j n (dirs_pm j Hj) Hb Hd En). }
    pose proof (upd_bound shape dX phi h HdX F T n d b G Hd Hfb) as B. rewrite HdXe in B by exact Hd.
    rewrite <- E in B. exact B.
  - intros n Hn Fn. rewrite (Up n Hn Fn). lra.
  - intros n Hn Fn _. apply Up; assumption.
  - intros a d j n [].
  - intros a Ha Na Fa. exfalso. apply Na, (Fr a Ha). exact Fa.
  - exact T0h.
  - intros a d j [].
Qed.

Lemma narrow_same (F : nat -> flg) n : F n = Narrow -> upd F n Narrow = F.
Proof. intros E. apply functional_extensionality. intros k. unfold upd. destruct (Nat.eqb_spec k n) as [->|]; auto. Qed.

(** the final map satisfies the upwind equation at every cell that was not initialised *)
Theorem fmm_upwind : List.length shape <= 12 ->
  exists b D, distance shape dX phi = Ok b /\ view sz b D /\
    (((forall i, i < sz -> F0 i = Far) /\ (forall i, i < sz -> D i = 0%R)) \/
     ((exists i, i < sz /\ F0 i = Frozen) /\
      (forall i, i < sz -> sgn_ok (phi i) (D i) /\ (F0 i = Frozen -> D i = T0 i) /\
          (F0 i <> Frozen -> U (fun _ => Frozen) D i (Rabs (D i)) = 1%R)))).
Proof.
  intros Hl.
  destruct (solve_spec shape dX phi VG) as [b [D [E [Vb C]]]].
  - intros todo F T i W Hi Fi Min Eq. apply VG_pop; assumption.
  - intros a d j todo F T W Ha Hd Hj H. apply (VG_skip a d j); assumption.
  - intros a d j todo F T n W Ha Hd Hj En Fn Z. exfalso.
    destruct (VG_write a d j todo F T n W Ha Hd Hj En Fn) as [Nz _]. contradiction.
  - intros a d j todo F T n W Ha Hd Hj En Fn Z.
    destruct (VG_write a d j todo F T n W Ha Hd Hj En (or_introl Fn)) as [_ X]. rewrite narrow_same in X by exact Fn. exact X.
  - intros a d j todo F T n W Ha Hd Hj En Fn Z. apply (VG_write a d j todo F T n W Ha Hd Hj En (or_intror Fn)).
  - exact VG_init.
  - exact Hl.
  - exists b, D. split; [exact E|]. split; [exact Vb|]. destruct C as [C|[Ex [F [T [W [Fc Dc]]]]]]; [left; exact C|right].
    split; [exact Ex|]. pose proof (g_v1 _ _ _ W) as W1.
    assert (All : forall i, i < sz -> F i = Frozen).
    { destruct (v_some _ _ _ _ _ _ _ W1) as [i0 [Hi0 Fi0]].
      apply (grid_connected shape (fun i => F i = Frozen)) with (i0 := i0); auto.
      intros i d j n Hj Hi Hd En Fi.
      assert (Hj' : In j dirs) by (unfold dirs; cbn; lia).
      destruct (Fc n (nb_lt shape i d j n Hj' Hi Hd En)) as [X|X]; [|exact X].
      exfalso. apply (v_reach _ _ _ _ _ _ _ W1 i d j n Hi Hd Hj' En Fi X). }
    assert (De : forall i, i < sz -> D i = T i) by (intros i Hi; rewrite (Dc i Hi), (All i Hi); reflexivity).
    intros i Hi. rewrite (De i Hi). split; [|split].
    + apply (v_sgn _ _ _ _ _ _ _ W1 i Hi). rewrite (All i Hi). discriminate.
    + intros X. apply (v_init _ _ _ _ _ _ _ W1 i Hi X).
    + intros X. rewrite <- (g_fin _ _ _ W i Hi X (All i Hi)).
      apply Rle_antisym; apply U_le; intros d n Hd [j [Hj [En Fn]]]; right; exists n;
        assert (Hn : n < sz) by (apply (nb_lt shape i d j n Hj Hi Hd En)).
      * split; [exists j; split; [exact Hj|]; split; [exact En|apply All; exact Hn]|]. rewrite (De n Hn). lra.
      * split; [exists j; auto|]. rewrite (De n Hn). lra.
Qed.

End FMM5.
