(** Fast marching: values. Sign, bounds, and reachability of every cell. *)
From Coq Require Import FunctionalExtensionality.
From Verif Require Import Base HeapModel HeapSpec HeapProof FmmModel FmmGrid FmmProof FmmProof2.
Open Scope nat_scope.

Lemma maxDouble_pos : (0 < maxDouble)%R.
Proof.
  unfold maxDouble. apply Rmult_lt_0_compat; [|apply pow_lt; lra].
  assert (/ 2 ^ 52 < 2)%R; [|lra].
  apply Rlt_trans with 1%R; [|lra]. rewrite <- Rinv_1. apply Rinv_lt_contravar; [|apply Rlt_pow_R1; [lra|lia]].
  rewrite Rmult_1_l. apply pow_lt; lra.
Qed.
Lemma doubleEpsilon_pos : (0 < doubleEpsilon)%R.
Proof. unfold doubleEpsilon. apply Rinv_0_lt_compat. apply pow_lt. lra. Qed.

(** the quadratic: largest / smallest root, or nothing below 1 *)
Lemma solveQuadratic_spec phi i a b c : (0 < a)%R ->
  let q r := (a * r ^ 2 + b * r + c)%R in
  let x := solveQuadratic phi i a b c in
  (x = 0%R /\ forall r, (1 <= q r)%R) \/
  ((exists r, (q r < 1)%R) /\ q x = 1%R /\
   (doubleEpsilon < phi i -> forall r, q r <= 1 -> r <= x)%R /\
   (~ (doubleEpsilon < phi i) -> forall r, q r <= 1 -> x <= r)%R).
Proof.
  intros Ha q x. subst x. unfold solveQuadratic. set (det := (b ^ 2 - 4 * a * (c - 1))%R).
  assert (Sq : forall r, (4 * a * (q r - 1) = (2 * a * r + b) ^ 2 - det)%R) by (intros r; unfold q, det; ring).
  destruct (Rlt_dec 0 det) as [P|N].
  - right. pose proof (sqrt_lt_R0 det P) as Sp. pose proof (sqrt_sqrt det (Rlt_le _ _ P)) as Ss.
    set (w := sqrt det) in *.
    assert (E0 : (2 * a * ((- b + w) / 2 / a) + b = w)%R) by (field; lra).
    assert (E1 : (2 * a * ((- b - w) / 2 / a) + b = - w)%R) by (field; lra).
    assert (Q1 : forall y, (((2 * a * y + b) ^ 2 = det)%R -> q y = 1%R)).
    { intros y Hy. specialize (Sq y). rewrite Hy in Sq.
      assert (a * (q y - 1) = 0)%R by lra. apply Rmult_integral in H. lra. }
    assert (B : forall r, (q r <= 1 -> - w <= 2 * a * r + b <= w)%R).
    { intros r Hr. specialize (Sq r).
      assert ((2 * a * r + b) ^ 2 <= w * w)%R by (rewrite Ss; nra).
      split; nra. }
    split.
    { exists (- b / (2 * a))%R. specialize (Sq (- b / (2 * a))%R).
      replace (2 * a * (- b / (2 * a)) + b)%R with 0%R in Sq by (field; lra). nra. }
    destruct (Rlt_dec doubleEpsilon (phi i)) as [G|G]; split.
    + apply Q1. rewrite E0. rewrite <- Ss. ring.
    + split; [|intros X; contradiction]. intros _ r Hr. specialize (B r Hr).
      apply Rmult_le_reg_l with (2 * a)%R; [lra|]. lra.
    + apply Q1. rewrite E1. rewrite <- Ss. ring.
    + split; [intros X; contradiction|]. intros _ r Hr. specialize (B r Hr).
      apply Rmult_le_reg_l with (2 * a)%R; [lra|]. lra.
  - left. split; [reflexivity|]. intros r. specialize (Sq r).
    assert (0 <= (2 * a * r + b) ^ 2)%R by apply pow2_ge_0. nra.
Qed.

Definition sgn_ok (p x : R) : Prop := ((0 < p -> 0 < x) /\ (p < 0 -> x < 0) /\ (p = 0 -> x = 0))%R.

Fixpoint sumr {A} (f : A -> R) (l : list A) : R := match l with [] => 0%R | a :: l' => (f a + sumr f l')%R end.
Lemma sumr_le {A} (f g : A -> R) l : (forall a, In a l -> f a <= g a)%R -> (sumr f l <= sumr g l)%R.
Proof. induction l as [|a l IH]; intros H; cbn; [lra|].
  apply Rplus_le_compat; [apply H; left; reflexivity|apply IH; intros; apply H; right; assumption]. Qed.
Lemma sumr_ext {A} (f g : A -> R) l : (forall a, In a l -> f a = g a) -> sumr f l = sumr g l.
Proof. induction l as [|a l IH]; intros H; cbn; [reflexivity|].
  rewrite H by (left; reflexivity). rewrite IH; [reflexivity|]. intros; apply H; right; assumption. Qed.
Lemma sumr_nonneg {A} (f : A -> R) l : (forall a, In a l -> 0 <= f a)%R -> (0 <= sumr f l)%R.
Proof. induction l as [|a l IH]; intros H; cbn; [lra|].
  apply Rplus_le_le_0_compat; [apply H; left; reflexivity|apply IH; intros; apply H; right; assumption]. Qed.
Lemma sumr_term {A} (f : A -> R) l a : (forall a, In a l -> 0 <= f a)%R -> In a l -> (f a <= sumr f l)%R.
Proof. induction l as [|b l IH]; intros H Hin; [destruct Hin|]. cbn. destruct Hin as [->|Hin].
  - assert (0 <= sumr f l)%R by (apply sumr_nonneg; intros; apply H; right; assumption). lra.
  - assert (0 <= f b)%R by (apply H; left; reflexivity).
    assert (f a <= sumr f l)%R by (apply IH; [intros; apply H; right; assumption|assumption]). lra.
Qed.
Lemma sumr_pos {A} (f : A -> R) l a : (forall a, In a l -> 0 <= f a)%R -> In a l -> (0 < f a)%R -> (0 < sumr f l)%R.
Proof. intros H Hin P. pose proof (sumr_term f l a H Hin). lra. Qed.

Lemma dirs_opp j : In j dirs -> In (- j)%Z dirs.
Proof. unfold dirs. cbn. lia. Qed.
Lemma dirs_pm j : In j dirs -> (j = 1 \/ j = -1)%Z.
Proof. unfold dirs. cbn. lia. Qed.

Section FMM3.
Variable shape : list nat.
Variable dX : list R.
Variable phi : nat -> R.
Let sz := size_ shape.
Let nd := List.length shape.
Notation updv := (updv shape dX phi).
Notation bestv := (bestv shape).
Notation F0 := (F0 shape dX phi).
Notation T0 := (T0 shape dX phi).
Notation cnt := (cnt shape).

(** frozen neighbour of [i] in dimension [d] *)
Definition fnb (F : nat -> flg) (i d n : nat) : Prop :=
  exists j, In j dirs /\ nb shape i d j = Some n /\ F n = Frozen.

Lemma bestv_spec F T i d :
  (bestv F T i d = maxDouble /\ forall n, fnb F i d n -> (maxDouble <= Rabs (T n))%R) \/
  (exists n, fnb F i d n /\ bestv F T i d = T n /\ (Rabs (T n) < maxDouble)%R /\
     forall n', fnb F i d n' -> (Rabs (T n) <= Rabs (T n'))%R).
Proof.
  pose proof maxDouble_pos as MP.
  assert (Ma : Rabs maxDouble = maxDouble) by (apply Rabs_right; lra).
  assert (D : forall n, fnb F i d n <->
    (nb shape i d (-1) = Some n /\ F n = Frozen) \/ (nb shape i d 1 = Some n /\ F n = Frozen)).
  { intros n. unfold fnb, dirs. split.
    - intros [j [Hj H]]. cbn in Hj. destruct Hj as [<-|[<-|[]]]; auto.
    - intros [H|H]; eexists; (split; [|exact H]); cbn; auto. }
  unfold FmmProof.bestv, dirs. cbn [fold_left]. unfold nbF.
  assert (St : forall j v, exists v',
     match (match nb shape i d j with Some n => if flg_eqb (F n) Mask then None else Some n | None => None end) with
     | None => v
     | Some n => if flg_eqb (F n) Frozen then (if Rlt_dec (Rabs (T n)) (Rabs v) then T n else v) else v
     end = v' /\
     (forall n, nb shape i d j = Some n -> F n = Frozen -> (Rabs v' <= Rabs (T n))%R) /\
     (Rabs v' <= Rabs v)%R /\
     (v' = v \/ exists n, nb shape i d j = Some n /\ F n = Frozen /\ v' = T n /\ (Rabs v' < Rabs v)%R)).
  { intros j v. destruct (nb shape i d j) as [n|] eqn:E.
    - destruct (F n) eqn:Ef; cbn [flg_eqb]; rewrite ?Ef; cbn [flg_eqb];
        try (exists v; split; [reflexivity|]; split; [intros k Ek; injection Ek as <-; congruence|]; split; [lra|left; reflexivity]).
      destruct (Rlt_dec (Rabs (T n)) (Rabs v)) as [L|L].
      + exists (T n). split; [reflexivity|]. split; [intros k Ek _; injection Ek as <-; lra|]. split; [lra|].
        right. exists n. auto.
      + exists v. split; [reflexivity|]. split; [intros k Ek _; injection Ek as <-; lra|]. split; [lra|]. left; reflexivity.
    - exists v. split; [reflexivity|]. split; [intros k Ek; congruence|]. split; [lra|left; reflexivity]. }
  destruct (St (-1)%Z maxDouble) as [v1 [E1 [A1 [B1 C1]]]]. rewrite E1.
  destruct (St 1%Z v1) as [v2 [E2 [A2 [B2 C2]]]]. rewrite E2. clear St E1 E2.
  assert (Min : forall n, fnb F i d n -> (Rabs v2 <= Rabs (T n))%R).
  { intros n Hn. apply D in Hn. destruct Hn as [[H1 H2]|[H1 H2]].
    - specialize (A1 n H1 H2). lra.
    - apply A2; assumption. }
  destruct C2 as [->|[n [G1 [G2 [-> G4]]]]].
  - destruct C1 as [->|[n [G1 [G2 [-> G4]]]]].
    + left. split; [reflexivity|]. intros n Hn. rewrite <- Ma. apply Min; exact Hn.
    + right. exists n. split; [apply D; left; auto|]. split; [reflexivity|]. split; [lra|]. exact Min.
  - right. exists n. split; [apply D; right; auto|]. split; [reflexivity|]. split; [lra|]. exact Min.
Qed.

(** the set of dimensions that contribute, and the signless sum of squares *)
Definition act (F : nat -> flg) (T : nat -> R) (i d : nat) : bool := if Rlt_dec (bestv F T i d) maxDouble then true else false.
Definition Gs (F : nat -> flg) (T : nat -> R) (i : nat) (s r : R) : R :=
  sumr (fun d => if act F T i d then (idx2 dX d * (r - s * bestv F T i d) ^ 2)%R else 0%R) (dims shape).

Lemma abcv_spec F T i l : forall acc r,
  let '(a, b, c) := abcv shape dX F T i l acc in
  let '(a0, b0, c0) := acc in
  (a * r ^ 2 + b * r + c = a0 * r ^ 2 + b0 * r + c0 +
    sumr (fun d => if act F T i d then (idx2 dX d * (r - bestv F T i d) ^ 2)%R else 0%R) l)%R /\
  a = (a0 + sumr (fun d => if act F T i d then idx2 dX d else 0%R) l)%R.
Proof.
  induction l as [|d l IH]; intros [[a0 b0] c0] r; cbn [abcv fold_left sumr].
  - split; ring.
  - unfold abcv in IH. cbv zeta. unfold act at 1 3. destruct (Rlt_dec (bestv F T i d) maxDouble).
    + specialize (IH (a0 + idx2 dX d, b0 - idx2 dX d * 2 * bestv F T i d, c0 + idx2 dX d * bestv F T i d ^ 2)%R r).
      destruct (fold_left _ l _) as [[a b] c]. destruct IH as [I1 I2]. split; [rewrite I1; unfold sumr; ring|rewrite I2; unfold sumr; ring].
    + specialize (IH (a0, b0, c0) r).
      destruct (fold_left _ l _) as [[a b] c]. destruct IH as [I1 I2]. split; [rewrite I1; unfold sumr; ring|rewrite I2; unfold sumr; ring].
Qed.

Variable Hmax : R.
Hypothesis HdX : forall d, d < nd -> (0 < nth d dX 0 <= Hmax)%R.

Lemma idx2_pos d : d < nd -> (0 < idx2 dX d)%R.
Proof. intros Hd. destruct (HdX d Hd). unfold idx2. apply Rdiv_lt_0_compat; [|lra]. apply Rdiv_lt_0_compat; lra. Qed.
Lemma idx2_sq d y : d < nd -> (idx2 dX d * y ^ 2 <= 1 -> Rabs y <= nth d dX 0)%R.
Proof.
  intros Hd. destruct (HdX d Hd) as [P _]. intros H.
  assert (E : (idx2 dX d * y ^ 2 = (y / nth d dX 0) ^ 2)%R) by (unfold idx2; field; lra).
  rewrite E in H. set (h := nth d dX 0%R) in *.
  assert (Hy : (y = (y / h) * h)%R) by (field; lra).
  assert (-1 <= y / h <= 1)%R by nra. rewrite Hy. rewrite Rabs_mult, (Rabs_right h) by lra.
  assert (Rabs (y / h) <= 1)%R by (apply Rabs_le; lra). nra.
Qed.

(** frozen neighbours of [i], all with small values, all on [i]'s side *)
Definition good (F : nat -> flg) (T : nat -> R) (i : nat) : Prop :=
  (phi i < 0 \/ doubleEpsilon < phi i)%R /\
  (exists d n, d < nd /\ fnb F i d n) /\
  (forall d n, d < nd -> fnb F i d n -> (Rabs (T n) < maxDouble)%R /\
      (phi i < 0 -> T n <= 0)%R /\ (0 < phi i -> 0 <= T n)%R).

Definition Gabs (F : nat -> flg) (T : nat -> R) (i : nat) (r : R) : R :=
  sumr (fun d => if act F T i d then (idx2 dX d * (r - Rabs (bestv F T i d)) ^ 2)%R else 0%R) (dims shape).

Lemma act_fnb F T i d n : good F T i -> d < nd -> fnb F i d n -> act F T i d = true.
Proof.
  intros [_ [_ G]] Hd Hn. unfold act. destruct (bestv_spec F T i d) as [[_ A]|[n' [_ [-> [A _]]]]].
  - specialize (A n Hn). destruct (G d n Hd Hn) as [B _]. lra.
  - destruct (Rlt_dec (T n') maxDouble) as [L|L]; [reflexivity|]. pose proof (Rle_abs (T n')). lra.
Qed.
Lemma act_spec F T i d : good F T i -> d < nd -> act F T i d = true ->
  exists n, fnb F i d n /\ bestv F T i d = T n /\ forall n', fnb F i d n' -> (Rabs (T n) <= Rabs (T n'))%R.
Proof.
  intros G Hd A. destruct (bestv_spec F T i d) as [[E _]|[n [B1 [B2 [B3 B4]]]]].
  - unfold act in A. rewrite E in A. destruct (Rlt_dec maxDouble maxDouble); [lra|discriminate].
  - exists n. auto.
Qed.
Lemma act_false F T i d : good F T i -> d < nd -> act F T i d = false -> forall n, ~ fnb F i d n.
Proof. intros G Hd A n Hn. rewrite (act_fnb F T i d n G Hd Hn) in A. discriminate. Qed.

Lemma Gabs_nonneg_term F T i r d : In d (dims shape) ->
  (0 <= (if act F T i d then (idx2 dX d * (r - Rabs (bestv F T i d)) ^ 2) else 0))%R.
Proof. intros Hd. apply in_dims in Hd. destruct (act F T i d); [|lra].
  apply Rmult_le_pos; [apply Rlt_le, idx2_pos; exact Hd|apply pow2_ge_0]. Qed.

Lemma upd_abs F T i : good F T i ->
  let x := updv F T i in
  (x = 0%R /\ forall r, (1 <= Gabs F T i r)%R) \/
  (x <> 0%R /\ sgn_ok (phi i) x /\ (exists r, (Gabs F T i r < 1)%R) /\ Gabs F T i (Rabs x) = 1%R /\
   forall r, (Gabs F T i r <= 1 -> r <= Rabs x)%R).
Proof.
  intros G x. pose proof doubleEpsilon_pos as EP.
  set (s := if Rlt_dec (phi i) 0 then (-1)%R else 1%R).
  assert (Sv : forall d, d < nd -> act F T i d = true -> (bestv F T i d = s * Rabs (bestv F T i d))%R).
  { intros d Hd A. destruct (act_spec F T i d G Hd A) as [n [B1 [B2 _]]]. rewrite B2.
    destruct G as [G1 [_ G3]]. destruct (G3 d n Hd B1) as [_ [S1 S2]]. unfold s.
    destruct (Rlt_dec (phi i) 0) as [L|L].
    - specialize (S1 L). rewrite Rabs_left1 by lra. ring.
    - rewrite Rabs_right by (apply Rle_ge, S2; lra). ring. }
  assert (Ss : (s * s = 1)%R) by (unfold s; destruct (Rlt_dec (phi i) 0); lra).
  pose proof (fun r => abcv_spec F T i (dims shape) (0%R, 0%R, 0%R) r) as Sp.
  unfold x, FmmProof.updv. clear x.
  destruct (abcv shape dX F T i (dims shape) (0%R, 0%R, 0%R)) as [[a b] c].
  assert (Ha : (0 < a)%R).
  { destruct (Sp 0%R) as [_ ->]. rewrite Rplus_0_l. destruct G as [G1 [[d [n [Hd Hn]]] G3]].
    apply (sumr_pos _ _ d).
    - intros d' Hd'. apply in_dims in Hd'. destruct (act F T i d'); [apply Rlt_le, idx2_pos; exact Hd'|lra].
    - apply in_dims. exact Hd.
    - rewrite (act_fnb F T i d n); [apply idx2_pos; exact Hd|split; [exact G1|split; [exists d, n; auto|exact G3]]|exact Hd|exact Hn]. }
  assert (Eq : forall r, (a * r ^ 2 + b * r + c = Gabs F T i (s * r))%R).
  { intros r. destruct (Sp r) as [-> _]. unfold Gabs. rewrite !Rmult_0_l, !Rplus_0_l.
    apply sumr_ext. intros d Hd. apply in_dims in Hd. destruct (act F T i d) eqn:A; [|reflexivity].
    rewrite (Sv d Hd A) at 1.
    replace ((r - s * Rabs (bestv F T i d)) ^ 2)%R with ((s * s) * (s * r - Rabs (bestv F T i d)) ^ 2 + (1 - s * s) * (r ^ 2 - (s * s) * r ^2 + r ^ 2 * (s * s) - r ^ 2 + (r - s * Rabs (bestv F T i d)) ^ 2))%R.
    - rewrite Ss. ring.
    - rewrite Ss.
      assert (X : ((s * r - Rabs (bestv F T i d)) ^ 2 = (s * s) * r ^ 2 - 2 * s * r * Rabs (bestv F T i d) + Rabs (bestv F T i d) ^ 2)%R) by ring.
      assert (Y : ((r - s * Rabs (bestv F T i d)) ^ 2 = r ^ 2 - 2 * s * r * Rabs (bestv F T i d) + (s * s) * Rabs (bestv F T i d) ^ 2)%R) by ring.
      rewrite X, Y, Ss. ring. }
  assert (Eq' : forall r, Gabs F T i r = (a * (s * r) ^ 2 + b * (s * r) + c)%R).
  { intros r. rewrite Eq. f_equal. rewrite <- Rmult_assoc, Ss. ring. }
  destruct (solveQuadratic_spec phi i a b c Ha) as [[E N]|[[r0 R0] [Qx [L1 L2]]]].
  - left. split; [exact E|]. intros r. rewrite Eq'. apply N.
  - right. set (x := solveQuadratic phi i a b c) in *.
    assert (Mx : forall r, (Gabs F T i r <= 1 -> r <= s * x)%R).
    { intros r Hr. rewrite Eq' in Hr. destruct G as [G1 _]. unfold s in *.
      destruct (Rlt_dec (phi i) 0) as [L|L].
      - specialize (L2 ltac:(lra) _ Hr). lra.
      - specialize (L1 ltac:(lra) _ Hr). lra. }
    assert (Gx : Gabs F T i (s * x) = 1%R) by (rewrite <- Eq; exact Qx).
    assert (R1 : (Gabs F T i (s * r0) < 1)%R) by (rewrite <- Eq; exact R0).
    assert (Pos : (0 < s * x)%R).
    { destruct (Rlt_dec 0 (s * x)) as [P|P]; [exact P|exfalso].
      assert (Hle : (s * r0 <= s * x)%R) by (apply Mx; lra).
      assert ((Gabs F T i (s * x) <= Gabs F T i (s * r0))%R); [|lra].
      apply sumr_le. intros d Hd. apply in_dims in Hd. destruct (act F T i d); [|lra].
      apply Rmult_le_compat_l; [apply Rlt_le, idx2_pos; exact Hd|].
      pose proof (Rabs_pos (bestv F T i d)). nra. }
    assert (Ax : Rabs x = (s * x)%R).
    { unfold s in *. destruct (Rlt_dec (phi i) 0); [rewrite Rabs_left; lra|rewrite Rabs_right; lra]. }
    split; [unfold s in Pos; destruct (Rlt_dec (phi i) 0); lra|]. split.
    + destruct G as [G1 _]. unfold sgn_ok. unfold s in *. destruct (Rlt_dec (phi i) 0); repeat split; intros; lra.
    + rewrite Ax. split; [exists (s * r0)%R; exact R1|]. split; [exact Gx|exact Mx].
Qed.

Lemma upd_bound F T i d n : good F T i -> d < nd -> fnb F i d n ->
  (Rabs (updv F T i) <= Rabs (T n) + nth d dX 0)%R.
Proof.
  intros G Hd Hn. destruct (HdX d Hd) as [HP _]. pose proof (Rabs_pos (T n)) as Tp.
  destruct (upd_abs F T i G) as [[-> _]|[_ [_ [_ [E _]]]]]; [rewrite Rabs_R0; lra|].
  pose proof (act_fnb F T i d n G Hd Hn) as A.
  destruct (act_spec F T i d G Hd A) as [n' [B1 [B2 B3]]]. specialize (B3 n Hn).
  assert (L : (idx2 dX d * (Rabs (updv F T i) - Rabs (T n')) ^ 2 <= 1)%R).
  { apply Rle_trans with (Gabs F T i (Rabs (updv F T i))); [|lra]. unfold Gabs.
    pose proof (sumr_term (fun d => if act F T i d then (idx2 dX d * (Rabs (updv F T i) - Rabs (bestv F T i d)) ^ 2)%R else 0%R)
      (dims shape) d) as St. cbv beta in St. rewrite A, B2 in St. apply St.
    - intros e He. apply (Gabs_nonneg_term F T i _ e He).
    - apply in_dims. exact Hd. }
  apply idx2_sq in L; [|exact Hd]. pose proof (Rle_abs (Rabs (updv F T i) - Rabs (T n'))). lra.
Qed.

(** ** sign / bound / reachability invariant *)
Hypothesis Hphi : forall i, i < sz -> (phi i <= 0 \/ doubleEpsilon < phi i)%R.
Hypothesis Hbig : (Hmax * (INR sz + 1) < maxDouble)%R.
Hypothesis HmaxP : (0 < Hmax)%R.

Record V1 (todo : list (nat * nat * Z)) (F : nat -> flg) (T : nat -> R) : Prop := {
  v_sgn : forall i, i < sz -> F i <> Far -> sgn_ok (phi i) (T i);
  v_side : forall i, i < sz -> F i <> Frozen -> phi i <> 0%R /\
     forall d j n, d < nd -> In j dirs -> nb shape i d j = Some n -> (0 <= phi i * phi n)%R;
  v_bf : forall i, i < sz -> F i = Frozen -> (Rabs (T i) <= Hmax * INR (cnt Frozen F))%R;
  v_bn : forall i, i < sz -> F i = Narrow -> (Rabs (T i) <= Hmax * (INR (cnt Frozen F) + 1))%R;
  v_reach : forall a d j n, a < sz -> d < nd -> In j dirs -> nb shape a d j = Some n ->
     F a = Frozen -> F n = Far -> In (a, d, j) todo;
  v_eq : forall a d j b e k, In (a, d, j) todo -> In (b, e, k) todo ->
     a < sz /\ b < sz /\ F a = Frozen /\ F b = Frozen /\ Rabs (T a) = Rabs (T b);
  v_init : forall i, i < sz -> F0 i = Frozen -> F i = Frozen /\ T i = T0 i;
  v_mask : forall i, i < sz -> F i <> Mask;
  v_some : exists i, i < sz /\ F i = Frozen
}.

Lemma cnt_big F : (Hmax * INR (cnt Frozen F) < maxDouble)%R.
Proof.
  assert (INR (cnt Frozen F) <= INR sz)%R by (apply le_INR, cnt_le). nra.
Qed.


Lemma V1_good todo F T i d j a : V1 todo F T -> i < sz -> F i <> Frozen ->
  a < sz -> d < nd -> In j dirs -> nb shape a d j = Some i -> F a = Frozen -> good F T i.
Proof.
  intros W Hi Ni Ha Hd Hj E Fa. destruct (v_side _ _ _ W i Hi Ni) as [P0 P1]. split; [|split].
  - destruct (Hphi i Hi) as [H|H]; [left; lra|right; exact H].
  - exists d, a. split; [exact Hd|]. exists (- j)%Z. split; [apply dirs_opp; exact Hj|]. split; [|exact Fa].
    apply (nb_in shape a d j i (dirs_pm j Hj) Ha Hd E).
  - intros e n He [k [Hk [En Fn]]].
    assert (Hn : n < sz) by (apply (nb_lt shape i e k n Hk Hi He En)).
    split; [pose proof (v_bf _ _ _ W n Hn Fn); pose proof (cnt_big F); lra|].
    destruct (v_sgn _ _ _ W n Hn ltac:(congruence)) as [S1 [S2 S3]]. specialize (P1 e k n He Hk En).
    split; intros Hp.
    + destruct (Rtotal_order (phi n) 0) as [L|[L|L]]; [specialize (S2 L); lra|specialize (S3 L); lra|]. nra.
    + destruct (Rtotal_order (phi n) 0) as [L|[L|L]]; [|specialize (S3 L); lra|specialize (S1 L); lra]. nra.
Qed.

Lemma V1_pop todo F T i : V1 todo F T -> i < sz -> F i = Narrow ->
  (forall k, k < sz -> F k = Narrow -> (Rabs (T i) <= Rabs (T k))%R) ->
  (forall a d j, In (a, d, j) todo -> F a = Frozen /\ Rabs (T a) = Rabs (T i)) ->
  V1 (todo ++ trip shape i) (upd F i Frozen) T.
Proof.
  intros W Hi Ni Min Eq.
  assert (Hc : cnt Frozen (upd F i Frozen) = S (cnt Frozen F)) by (apply cnt_enter; [exact Hi|congruence]).
  assert (Hc' : (INR (cnt Frozen (upd F i Frozen)) = INR (cnt Frozen F) + 1)%R) by (rewrite Hc, S_INR; reflexivity).
  constructor.
  - intros k Hk Nk. destruct (Nat.eq_dec k i) as [->|N]; [apply (v_sgn _ _ _ W); [exact Hi|congruence]|].
    rewrite upd_other in Nk by assumption. apply (v_sgn _ _ _ W); assumption.
  - intros k Hk Nk. destruct (Nat.eq_dec k i) as [->|N]; [rewrite upd_same in Nk; congruence|].
    rewrite upd_other in Nk by assumption. apply (v_side _ _ _ W); assumption.
  - intros k Hk Nk. rewrite Hc'. destruct (Nat.eq_dec k i) as [->|N]; [apply (v_bn _ _ _ W i Hi Ni)|].
    rewrite upd_other in Nk by assumption. pose proof (v_bf _ _ _ W k Hk Nk). lra.
  - intros k Hk Nk. rewrite Hc'. destruct (Nat.eq_dec k i) as [->|N]; [rewrite upd_same in Nk; congruence|].
    rewrite upd_other in Nk by assumption. pose proof (v_bn _ _ _ W k Hk Nk). lra.
  - intros a d j n Ha Hd Hj En Fa Fn.
    assert (n <> i) by (intros ->; rewrite upd_same in Fn; discriminate). rewrite upd_other in Fn by assumption.
    apply in_or_app. destruct (Nat.eq_dec a i) as [->|N]; [right; apply in_trip; auto|].
    rewrite upd_other in Fa by assumption. left. apply (v_reach _ _ _ W a d j n); assumption.
  - assert (P : forall a d j, In (a, d, j) (todo ++ trip shape i) ->
       a < sz /\ upd F i Frozen a = Frozen /\ Rabs (T a) = Rabs (T i)).
    { intros a d j H. apply in_app_or in H. destruct H as [H|H].
      - destruct (Eq a d j H) as [X1 X2]. destruct (v_eq _ _ _ W a d j a d j H H) as [X3 _].
        split; [exact X3|]. split; [|exact X2]. unfold upd. destruct (Nat.eqb a i); auto.
      - apply in_trip in H. destruct H as [-> _]. rewrite upd_same. auto. }
    intros a d j b e k H1 H2. destruct (P _ _ _ H1) as [X1 [X2 X3]]. destruct (P _ _ _ H2) as [Y1 [Y2 Y3]].
    repeat split; auto. congruence.
  - intros k Hk Fk. destruct (v_init _ _ _ W k Hk Fk) as [X1 X2]. split; [|exact X2].
    unfold upd. destruct (Nat.eqb k i); auto.
  - intros k Hk. unfold upd. destruct (Nat.eqb k i); [congruence|]. apply (v_mask _ _ _ W); exact Hk.
  - exists i. rewrite upd_same. auto.
Qed.

Lemma V1_drop a d j todo F T : V1 ((a, d, j) :: todo) F T ->
  (forall n, nb shape a d j = Some n -> F n <> Far) -> V1 todo F T.
Proof.
  intros W H. destruct W. constructor; auto.
  - intros a' d' j' n Ha Hd Hj En Fa Fn. specialize (v_reach0 a' d' j' n Ha Hd Hj En Fa Fn).
    destruct v_reach0 as [X|X]; [|exact X]. injection X as <- <- <-. exfalso. apply (H n En Fn).
  - intros a' d' j' b e k H1 H2. apply (v_eq0 a' d' j' b e k); right; assumption.
Qed.

Lemma far_gabs a d j todo F T n : V1 ((a, d, j) :: todo) F T -> a < sz -> d < nd -> In j dirs ->
  nb shape a d j = Some n -> F n = Far -> Gabs F T n (Rabs (T a)) = 0%R.
Proof.
  intros W Ha Hd Hj En Fn. assert (Hn : n < sz) by (apply (nb_lt shape a d j n Hj Ha Hd En)).
  destruct (v_eq _ _ _ W a d j a d j (or_introl eq_refl) (or_introl eq_refl)) as [_ [_ [Fa _]]].
  assert (G : good F T n) by (apply (V1_good _ _ _ n d j a W); auto; congruence).
  unfold Gabs. rewrite (sumr_ext _ (fun _ => 0%R)).
  - clear. induction (dims shape); cbn; lra.
  - intros e He. apply in_dims in He. destruct (act F T n e) eqn:A; [|reflexivity].
    destruct (act_spec F T n e G He A) as [b [[k [Hk [Eb Fb]]] [B2 _]]]. rewrite B2.
    assert (Hb : b < sz) by (apply (nb_lt shape n e k b Hk Hn He Eb)).
    assert (In (b, e, (- k)%Z) ((a, d, j) :: todo)).
    { apply (v_reach _ _ _ W b e (- k)%Z n); auto; [apply dirs_opp; exact Hk|].
      apply (nb_in shape n e k b (dirs_pm k Hk) Hn He Eb). }
    destruct (v_eq _ _ _ W a d j b e (- k)%Z (or_introl eq_refl) H) as [_ [_ [_ [_ ->]]]]. ring.
Qed.

Lemma V1_zero a d j todo F T n : V1 ((a, d, j) :: todo) F T -> a < sz -> d < nd -> In j dirs ->
  nb shape a d j = Some n -> F n = Narrow \/ F n = Far -> updv F T n = 0%R -> V1 todo F T /\ F n = Narrow.
Proof.
  intros W Ha Hd Hj En Fn Z. assert (F n = Narrow).
  { destruct Fn as [Fn|Fn]; [exact Fn|exfalso].
    assert (Hn : n < sz) by (apply (nb_lt shape a d j n Hj Ha Hd En)).
    destruct (v_eq _ _ _ W a d j a d j (or_introl eq_refl) (or_introl eq_refl)) as [_ [_ [Fa _]]].
    assert (G : good F T n) by (apply (V1_good _ _ _ n d j a W); auto; congruence).
    pose proof (far_gabs a d j todo F T n W Ha Hd Hj En Fn) as GZ.
    destruct (upd_abs F T n G) as [[_ N]|[N _]]; [|contradiction].
    specialize (N (Rabs (T a))). lra. }
  split; [|exact H]. apply (V1_drop a d j); [exact W|]. intros k Ek. congruence.
Qed.

Lemma V1_write a d j todo F T n : V1 ((a, d, j) :: todo) F T -> a < sz -> d < nd -> In j dirs ->
  nb shape a d j = Some n -> F n = Narrow \/ F n = Far -> updv F T n <> 0%R ->
  V1 todo (upd F n Narrow) (upd T n (updv F T n)).
Proof.
  intros W Ha Hd Hj En Fn NZ.
  assert (Hn : n < sz) by (apply (nb_lt shape a d j n Hj Ha Hd En)).
  destruct (v_eq _ _ _ W a d j a d j (or_introl eq_refl) (or_introl eq_refl)) as [_ [_ [Fa _]]].
  assert (Nf : F n <> Frozen) by (destruct Fn; congruence).
  assert (G : good F T n) by (apply (V1_good _ _ _ n d j a W); auto).
  assert (Sg : sgn_ok (phi n) (updv F T n)).
  { destruct (upd_abs F T n G) as [[N _]|[_ [N _]]]; [contradiction|exact N]. }
  assert (Hf : fnb F n d a).
  { exists (- j)%Z. split; [apply dirs_opp; exact Hj|]. split; [|exact Fa].
    apply (nb_in shape a d j n (dirs_pm j Hj) Ha Hd En). }
  pose proof (upd_bound F T n d a G Hd Hf) as Bd. destruct (HdX d Hd) as [_ HdM].
  pose proof (v_bf _ _ _ W a Ha Fa) as Ba.
  assert (Hc : cnt Frozen (upd F n Narrow) = cnt Frozen F) by (apply cnt_other; congruence).
  assert (NT : forall k, F k = Frozen -> k <> n) by (intros k Fk ->; contradiction).
  constructor.
  - intros k Hk Nk. destruct (Nat.eq_dec k n) as [->|N]; [rewrite upd_same; exact Sg|].
    rewrite upd_other in Nk by assumption. rewrite upd_other by assumption. apply (v_sgn _ _ _ W); assumption.
  - intros k Hk Nk. destruct (Nat.eq_dec k n) as [->|N]; [apply (v_side _ _ _ W); assumption|].
    rewrite upd_other in Nk by assumption. apply (v_side _ _ _ W); assumption.
  - intros k Hk Nk. rewrite Hc. destruct (Nat.eq_dec k n) as [->|N]; [rewrite upd_same in Nk; discriminate|].
    rewrite upd_other in Nk by assumption. rewrite upd_other by assumption. apply (v_bf _ _ _ W); assumption.
  - intros k Hk Nk. rewrite Hc. destruct (Nat.eq_dec k n) as [->|N]; [rewrite upd_same; lra|].
    rewrite upd_other in Nk by assumption. rewrite upd_other by assumption. apply (v_bn _ _ _ W); assumption.
  - intros a' d' j' k Ha' Hd' Hj' Ek Fa' Fk.
    destruct (Nat.eq_dec k n) as [->|N]; [rewrite upd_same in Fk; discriminate|].
    rewrite upd_other in Fk by assumption.
    destruct (Nat.eq_dec a' n) as [->|N']; [rewrite upd_same in Fa'; discriminate|].
    rewrite upd_other in Fa' by assumption.
    destruct (v_reach _ _ _ W a' d' j' k Ha' Hd' Hj' Ek Fa' Fk) as [X|X]; [|exact X].
    injection X as <- <- <-. congruence.
  - intros a' d' j' b e k H1 H2.
    destruct (v_eq _ _ _ W a' d' j' b e k (or_intror H1) (or_intror H2)) as [X1 [X2 [X3 [X4 X5]]]].
    rewrite !upd_other by auto. auto.
  - intros k Hk Fk. destruct (v_init _ _ _ W k Hk Fk) as [X1 X2]. rewrite !upd_other by auto. auto.
  - intros k Hk. unfold upd. destruct (Nat.eqb k n); [congruence|]. apply (v_mask _ _ _ W); exact Hk.
  - destruct (v_some _ _ _ W) as [k [Hk Fk]]. exists k. rewrite upd_other by auto. auto.
Qed.

Lemma V1_narrow_same todo F T n : F n = Narrow -> V1 todo (upd F n Narrow) T -> V1 todo F T.
Proof.
  intros Fn W. replace F with (upd F n Narrow); [exact W|].
  apply functional_extensionality. intros k. unfold upd. destruct (Nat.eqb_spec k n) as [->|]; auto.
Qed.
End FMM3.
