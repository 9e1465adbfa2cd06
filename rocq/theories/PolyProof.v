(** Polynomial arithmetic and the Lagrange basis: proofs. *)
From Coq Require Import Reals Lra Lia List.
From Coquelicot Require Import Coquelicot.
From Verif Require Import Base Sum PolyModel.
Import List ListNotations.
Open Scope R_scope.

Lemma co_map_seq (f : nat -> R) s n i : (i < n)%nat -> co (map f (seq s n)) i = f (s + i)%nat.
Proof.
  intros H. unfold co. rewrite (nth_indep _ 0 (f 0%nat)) by (rewrite map_length, seq_length; exact H).
  rewrite map_nth, seq_nth by exact H. reflexivity.
Qed.
Lemma co_over p i : (length p <= i)%nat -> co p i = 0.
Proof. intros H. unfold co. apply nth_overflow. exact H. Qed.

Lemma evaluate_ext n p x : (length p <= n)%nat -> evaluate p x = rsum n (fun i => co p i * x ^ i).
Proof.
  intros H. unfold evaluate. replace n with (length p + (n - length p))%nat by lia. rewrite rsum_split.
  rewrite (rsum_zero (n - length p)); [lra|]. intros i Hi. rewrite co_over by lia. ring.
Qed.

(** derivative *)
Lemma differentiate_ok p : p <> [] -> exists q, differentiate p = Ok q /\ length q = (length p - 1)%nat /\
  (forall i, co q i = co p (i + 1) * INR (i + 1)).
Proof.
  intros H. unfold differentiate. destruct p as [|a p]; [congruence|]. cbn [length]. eexists. split; [reflexivity|].
  split; [rewrite map_length, seq_length; lia|]. intros i. destruct (lt_dec i (length p)) as [L|L].
  - rewrite co_map_seq by exact L. reflexivity.
  - rewrite co_over by (rewrite map_length, seq_length; lia). rewrite co_over by (cbn; lia). ring.
Qed.

Lemma is_derive_rsum n (f : nat -> R -> R) (f' : nat -> R) x :
  (forall i, (i < n)%nat -> is_derive (f i) x (f' i)) -> is_derive (fun y => rsum n (fun i => f i y)) x (rsum n f').
Proof.
  induction n as [|n IH]; intros H; cbn; [apply (@is_derive_const R_AbsRing R_NormedModule 0 x)|].
  apply (is_derive_plus (fun y => rsum n (fun i => f i y)) (f n)); [apply IH; intros; apply H; lia|apply H; lia].
Qed.

Lemma derive_eval p q x : differentiate p = Ok q -> is_derive (evaluate p) x (evaluate q x).
Proof.
  intros E. assert (Hp : p <> []) by (intros ->; discriminate).
  destruct (differentiate_ok p Hp) as [q' [E' [L C]]]. rewrite E in E'. injection E' as <-.
  destruct p as [|a p]; [congruence|]. cbn [length] in L.
  assert (S : forall y, evaluate (a :: p) y = a + rsum (length p) (fun i => co (a :: p) (i + 1) * y ^ (i + 1))).
  { intros y. unfold evaluate. cbn [length]. rewrite rsum_S_l. unfold co at 1. cbn [nth]. rewrite pow_O, Rmult_1_r. f_equal.
    apply rsum_ext. intros i Hi. replace (S i) with (i + 1)%nat by lia. reflexivity. }
  apply (is_derive_ext (fun y => a + rsum (length p) (fun i => co (a :: p) (i + 1) * y ^ (i + 1)))).
  { intros y. symmetry. apply S. }
  rewrite (evaluate_ext (length p) q x) by lia.
  replace (rsum (length p) (fun i => co q i * x ^ i)) with (0 + rsum (length p) (fun i => co q i * x ^ i)) by ring.
  apply (is_derive_plus (fun _ => a) (fun y => rsum (length p) (fun i => co (a :: p) (i + 1) * y ^ (i + 1)))).
  - apply (@is_derive_const R_AbsRing R_NormedModule a x).
  - apply (is_derive_rsum (length p) (fun i y => co (a :: p) (i + 1) * y ^ (i + 1)) (fun i => co q i * x ^ i)).
    intros i Hi. rewrite C. auto_derive; [trivial|]. replace (pred (i + 1)) with i by lia. ring.
Qed.

(** integral *)
Lemma integrate_len p : length (integrate p) = S (length p).
Proof. unfold integrate. cbn. now rewrite map_length, seq_length. Qed.
Lemma integrate_co p i : co (integrate p) (S i) = co p i / INR (S i).
Proof.
  unfold integrate. unfold co at 1. cbn [nth]. fold (co (map (fun i => co p (i - 1) / INR i) (seq 1 (length p))) i).
  destruct (lt_dec i (length p)) as [L|L].
  - rewrite co_map_seq by exact L. replace (1 + i - 1)%nat with i by lia. reflexivity.
  - rewrite co_over by (rewrite map_length, seq_length; lia). rewrite co_over by lia. unfold Rdiv. ring.
Qed.

Lemma diff_integrate p : differentiate (integrate p) = Ok p.
Proof.
  destruct (differentiate_ok (integrate p)) as [q [E [L C]]]; [unfold integrate; discriminate|].
  rewrite E. f_equal. rewrite integrate_len in L.
  apply (nth_ext _ _ 0 0); [lia|]. intros i Hi. fold (co q i). fold (co p i). rewrite C.
  replace (i + 1)%nat with (S i) by lia. rewrite integrate_co. field. apply not_0_INR. lia.
Qed.

Lemma integrate_derive p x : is_derive (evaluate (integrate p)) x (evaluate p x).
Proof. apply derive_eval, diff_integrate. Qed.

Lemma evaluate_0 p : evaluate p 0 = co p 0.
Proof.
  destruct p as [|a p]; [reflexivity|]. unfold evaluate. cbn [length]. rewrite rsum_S_l. rewrite rsum_zero.
  - cbn. ring.
  - intros i Hi. cbn. ring.
Qed.
Lemma integrate_0 p : evaluate (integrate p) 0 = 0.
Proof. rewrite evaluate_0. reflexivity. Qed.

Lemma ex_derive_evaluate p x : ex_derive (evaluate p) x.
Proof.
  destruct p as [|a p].
  - exists 0. apply (is_derive_ext (fun _ => 0)); [reflexivity|apply (@is_derive_const R_AbsRing R_NormedModule 0 x)].
  - destruct (differentiate_ok (a :: p)) as [q [E _]]; [discriminate|]. exists (evaluate q x). apply derive_eval. exact E.
Qed.
Lemma continuous_evaluate p x : continuous (evaluate p) x.
Proof. apply (ex_derive_continuous (evaluate p)). apply ex_derive_evaluate. Qed.

Lemma integrate_RInt p a b : is_RInt (evaluate p) a b (evaluate (integrate p) b - evaluate (integrate p) a).
Proof.
  apply (is_RInt_derive (evaluate (integrate p)) (evaluate p)).
  - intros x _. apply integrate_derive.
  - intros x _. apply continuous_evaluate.
Qed.

(** product *)
Lemma multiply_ok p1 p2 : (0 < length p1 + length p2)%nat -> exists q, multiply p1 p2 = Ok q /\
  length q = (length p1 + length p2 - 1)%nat.
Proof.
  intros H. unfold multiply. destruct (length p1 + length p2)%nat as [|m]; [lia|]. eexists. split; [reflexivity|].
  rewrite map_length, seq_length. lia.
Qed.

Lemma rsum_shift n i (f : nat -> R) : (i <= n)%nat ->
  rsum n (fun k => if (i <=? k)%nat then f (k - i)%nat else 0) = rsum (n - i) f.
Proof.
  intros H. replace n with (i + (n - i))%nat at 1 by lia. rewrite rsum_split. rewrite rsum_zero.
  - rewrite Rplus_0_l. apply rsum_ext. intros k Hk. destruct (Nat.leb_spec i (i + k)); [|lia]. f_equal. lia.
  - intros k Hk. destruct (Nat.leb_spec i k); [lia|reflexivity].
Qed.

Lemma multiply_eval p1 p2 q x : multiply p1 p2 = Ok q -> evaluate q x = evaluate p1 x * evaluate p2 x.
Proof.
  intros E. unfold multiply in E. destruct (length p1 + length p2)%nat as [|m] eqn:Em; [discriminate|].
  injection E as <-. unfold evaluate at 1. rewrite map_length, seq_length.
  rewrite (rsum_ext m _ (fun k => rsum (length p1) (fun i => (if (i <=? k)%nat then (if (k - i <? length p2)%nat then co p2 (k - i) * x ^ (k - i) else 0) else 0) * (co p1 i * x ^ i)))).
  2:{ intros k Hk. rewrite co_map_seq by exact Hk. cbn [Nat.add]. rewrite <- rsum_scal_r. apply rsum_ext. intros i Hi.
      destruct (Nat.leb_spec i k); cbn [andb]; cbv iota; [|ring].
      destruct (Nat.ltb_spec (k - i) (length p2)); [|ring].
      replace (x ^ k) with (x ^ (i + (k - i))) by (f_equal; lia). rewrite pow_add. ring. }
  rewrite rsum_swap. unfold evaluate at 1. rewrite <- rsum_scal_r. apply rsum_ext. intros i Hi.
  rewrite rsum_scal_r. rewrite (rsum_shift m i (fun j => if (j <? length p2)%nat then co p2 j * x ^ j else 0)) by lia.
  rewrite Rmult_comm. f_equal. unfold evaluate.
  replace (m - i)%nat with (length p2 + (length p1 - 1 - i))%nat by lia. rewrite rsum_split.
  rewrite (rsum_zero (length p1 - 1 - i)).
  - rewrite Rplus_0_r. apply rsum_ext. intros j Hj. destruct (Nat.ltb_spec j (length p2)); [reflexivity|lia].
  - intros j Hj. destruct (Nat.ltb_spec (length p2 + j) (length p2)); [lia|reflexivity].
Qed.

Lemma pdiv_eval p c x : evaluate (pdiv p c) x = evaluate p x / c.
Proof.
  unfold evaluate, pdiv. rewrite map_length, <- rsum_div. apply rsum_ext. intros i Hi. unfold co.
  rewrite (nth_indep _ 0 (0 / c)) by (rewrite map_length; exact Hi).
  rewrite (map_nth (fun a => a / c) p 0 i). unfold Rdiv. ring.
Qed.
Lemma pdiv_len p c : length (pdiv p c) = length p.
Proof. apply map_length. Qed.

(** n-fold derivative *)
Lemma diff_ok n : forall p, (n <= length p)%nat -> exists q, diff n p = Ok q /\ length q = (length p - n)%nat.
Proof.
  induction n as [|n IH]; intros p H; cbn [diff].
  - exists p. split; [reflexivity|lia].
  - destruct (differentiate_ok p) as [q [E [L _]]]; [intros ->; cbn in H; lia|]. rewrite E. cbn [bind].
    destruct (IH q) as [r [E' L']]; [lia|]. exists r. split; [exact E'|lia].
Qed.
Lemma diff_derive n : forall p q, diff n p = Ok q -> forall x, Derive_n (evaluate p) n x = evaluate q x.
Proof.
  induction n as [|n IH]; intros p q E x; cbn [diff] in E.
  - injection E as <-. reflexivity.
  - apply bind_ok in E. destruct E as [p' [E1 E2]].
    replace (S n) with (n + 1)%nat by lia. rewrite <- Derive_n_comp.
    rewrite (Derive_n_ext _ (evaluate p')); [apply IH; exact E2|].
    intros t. cbn. apply is_derive_unique. apply derive_eval. exact E1.
Qed.

(** ** Lagrange basis *)
Fixpoint lprod (x : list R) (i : nat) (t : R) (n : nat) : R :=
  match n with
  | O => 1
  | S m => if Nat.eqb m i then lprod x i t m else lprod x i t m * ((t - nth m x 0) / (nth i x 0 - nth m x 0))
  end.

Lemma lagrange_ok x i : exists p, lagrange x i = Ok p /\ (forall t, evaluate p t = lprod x i t (length x)) /\
  ((i < length x)%nat -> length p = length x).
Proof.
  unfold lagrange.
  destruct (for_loop_inv (fun j p => (0 < length p)%nat /\ (forall t, evaluate p t = lprod x i t j) /\
      length p = (if (i <? j)%nat then j else S j)) (length x) 0 (fun j p =>
    if Nat.eqb j i then Ok p
    else q <- multiply p [(- nth j x 0)%R; 1%R] ;; Ok (pdiv q (nth i x 0 - nth j x 0)%R)) [1%R]) as [p [E [P0 [P1 P2]]]].
  - split; [cbn; lia|]. split; [|reflexivity]. intros t. unfold evaluate. cbn. ring.
  - intros j p Hj [P0 [P1 P2]]. destruct (Nat.eqb_spec j i) as [-> |N].
    + exists p. split; [reflexivity|]. split; [exact P0|]. split.
      * intros t. rewrite P1. cbn [lprod Nat.add]. rewrite Nat.eqb_refl. reflexivity.
      * rewrite P2. destruct (Nat.ltb_spec i i); [lia|]. destruct (Nat.ltb_spec i (1 + i)); [reflexivity|lia].
    + destruct (multiply_ok p [(- nth j x 0); 1]) as [q [Eq Lq]]; [cbn; lia|]. rewrite Eq. cbn [bind].
      eexists. split; [reflexivity|]. rewrite pdiv_len, Lq. cbn [length]. split; [lia|]. split.
      * intros t. rewrite pdiv_eval. rewrite (multiply_eval _ _ _ t Eq), P1. cbn [lprod Nat.add].
        destruct (Nat.eqb_spec j i); [congruence|]. unfold evaluate. cbn. unfold Rdiv. ring.
      * rewrite P2. destruct (Nat.ltb_spec i j); destruct (Nat.ltb_spec i (1 + j)); lia.
  - exists p. split; [exact E|]. cbn [Nat.add] in *. split; [exact P1|]. intros Hi. rewrite P2.
    destruct (Nat.ltb_spec i (length x)); [reflexivity|lia].
Qed.

Definition distinct (x : list R) : Prop := forall i j, (i < length x)%nat -> (j < length x)%nat -> nth i x 0 = nth j x 0 -> i = j.

Lemma lprod_self x i n : distinct x -> (i < length x)%nat -> (n <= length x)%nat -> lprod x i (nth i x 0) n = 1.
Proof.
  intros D Hi. induction n as [|n IH]; intros Hn; [reflexivity|]. cbn [lprod].
  destruct (Nat.eqb_spec n i) as [-> |N]; [apply IH; lia|]. rewrite IH by lia.
  assert (nth i x 0 - nth n x 0 <> 0). { intros E. apply N. symmetry. apply D; [exact Hi|lia|lra]. }
  field. exact H.
Qed.
Lemma lprod_other x i j n : (j < n)%nat -> j <> i -> lprod x i (nth j x 0) n = 0.
Proof.
  induction n as [|n IH]; intros Hj N; [lia|]. cbn [lprod]. destruct (Nat.eq_dec j n) as [-> |Nj].
  - destruct (Nat.eqb_spec n i); [congruence|]. replace (nth n x 0 - nth n x 0) with 0 by ring. unfold Rdiv. ring.
  - rewrite IH by (lia || exact N). destruct (Nat.eqb n i); ring.
Qed.

(** a polynomial with at least as many distinct roots as coefficients vanishes *)
Fixpoint pquot (p : list R) (r : R) : list R * R :=   (* synthetic division by (t - r): quotient, remainder *)
  match p with
  | [] => ([], 0)
  | a :: p' => let '(q, b) := pquot p' r in (b :: q, a + r * b)
  end.
Fixpoint heval (p : list R) (t : R) : R := match p with [] => 0 | a :: p' => a + t * heval p' t end.

Lemma heval_eval p t : heval p t = evaluate p t.
Proof.
  induction p as [|a p IH]; [reflexivity|]. cbn [heval]. rewrite IH. unfold evaluate. cbn [length]. rewrite rsum_S_l.
  unfold co at 2. cbn [nth pow]. rewrite Rmult_1_r. f_equal. rewrite <- rsum_scal. apply rsum_ext. intros i Hi.
  unfold co. cbn [nth pow]. ring.
Qed.
Lemma pquot_spec p r t : heval p t = (t - r) * heval (fst (pquot p r)) t + snd (pquot p r).
Proof.
  induction p as [|a p IH]; cbn; [ring|]. destruct (pquot p r) as [q b]. cbn in *. rewrite IH. ring.
Qed.
Lemma pquot_fst a p r : fst (pquot (a :: p) r) = snd (pquot p r) :: fst (pquot p r).
Proof. cbn. destruct (pquot p r). reflexivity. Qed.
Lemma pquot_len p r : length (fst (pquot p r)) = length p.
Proof. induction p as [|a p IH]; [reflexivity|]. rewrite pquot_fst. cbn. now rewrite IH. Qed.

(** the leading quotient coefficient is always 0: the quotient has one coefficient less *)
Lemma pquot_last p r : p <> [] -> exists q, fst (pquot p r) = q ++ [0] /\ length q = (length p - 1)%nat.
Proof.
  induction p as [|a p IH]; intros H; [congruence|]. rewrite pquot_fst. destruct p as [|b p].
  - exists []. split; reflexivity.
  - destruct IH as [q [E L]]; [discriminate|]. exists (snd (pquot (b :: p) r) :: q). split.
    + rewrite E. reflexivity.
    + cbn in *. rewrite L. lia.
Qed.
Lemma heval_snoc q t : heval (q ++ [0]) t = heval q t.
Proof. induction q as [|a q IH]; cbn; [ring|]. rewrite IH. reflexivity. Qed.

Lemma roots_zero : forall (rs : list R) p, NoDup rs -> (length p <= length rs)%nat -> (forall r, In r rs -> heval p r = 0) ->
  forall t, heval p t = 0.
Proof.
  induction rs as [|r rs IH]; intros p ND L Hr t.
  - destruct p; [reflexivity|cbn in L; lia].
  - destruct p as [|a p]; [reflexivity|].
    destruct (pquot_last (a :: p) r) as [q [Eq Lq]]; [discriminate|].
    assert (S : forall t, heval (a :: p) t = (t - r) * heval q t).
    { intros s. rewrite (pquot_spec (a :: p) r s). rewrite Eq, heval_snoc.
      assert (Z : snd (pquot (a :: p) r) = 0).
      { pose proof (pquot_spec (a :: p) r r) as Q. rewrite (Hr r) in Q by (left; reflexivity). lra. }
      rewrite Z. ring. }
    rewrite S. rewrite (IH q).
    + ring.
    + now inversion ND.
    + cbn in *. lia.
    + intros s Hs. assert (Ns : s <> r) by (intros ->; inversion ND; contradiction).
      pose proof (Hr s (or_intror Hs)) as Q. rewrite S in Q. apply Rmult_integral in Q. destruct Q; [lra|assumption].
Qed.

Lemma distinct_NoDup x : distinct x -> NoDup x.
Proof. intros D. apply (NoDup_nth x 0). intros i j Hi Hj E. apply D; assumption. Qed.

(** sum of polynomials of n coefficients *)
Definition padd (p q : list R) : list R := map (fun i => co p i + co q i) (seq 0 (max (length p) (length q))).
Definition pscal (c : R) (p : list R) : list R := map (fun a => c * a) p.
Lemma padd_eval p q t : evaluate (padd p q) t = evaluate p t + evaluate q t.
Proof.
  set (n := max (length p) (length q)). rewrite (evaluate_ext n p), (evaluate_ext n q) by (unfold n; lia).
  rewrite <- rsum_plus. unfold evaluate, padd. rewrite map_length, seq_length. fold n. apply rsum_ext. intros i Hi.
  rewrite co_map_seq by exact Hi. cbn [Nat.add]. ring.
Qed.
Lemma padd_len p q : length (padd p q) = max (length p) (length q).
Proof. unfold padd. now rewrite map_length, seq_length. Qed.
Lemma pscal_eval c p t : evaluate (pscal c p) t = c * evaluate p t.
Proof.
  unfold evaluate, pscal. rewrite map_length, <- rsum_scal. apply rsum_ext. intros i Hi. unfold co.
  rewrite (nth_indep _ 0 (c * 0)) by (rewrite map_length; exact Hi). rewrite (map_nth (fun a => c * a) p 0 i). ring.
Qed.
Lemma pscal_len c p : length (pscal c p) = length p. Proof. apply map_length. Qed.

Fixpoint psum (n : nat) (f : nat -> list R) : list R := match n with O => [] | S m => padd (psum m f) (f m) end.
Lemma psum_eval n f t : evaluate (psum n f) t = rsum n (fun i => evaluate (f i) t).
Proof. induction n as [|n IH]; [reflexivity|]. cbn [psum rsum]. rewrite padd_eval, IH. reflexivity. Qed.
Lemma psum_len n f m : (forall i, (i < n)%nat -> (length (f i) <= m)%nat) -> (length (psum n f) <= m)%nat.
Proof.
  induction n as [|n IH]; intros H; cbn [psum]; [cbn; lia|]. rewrite padd_len. apply Nat.max_lub; [apply IH; intros; apply H; lia|apply H; lia].
Qed.

(** interpolation: a polynomial with at most [length x] coefficients is determined by its values at the nodes *)
Lemma interpolation x (ps : nat -> poly) q :
  distinct x -> (forall i, (i < length x)%nat -> lagrange x i = Ok (ps i)) -> (length q <= length x)%nat ->
  forall t, evaluate q t = rsum (length x) (fun i => evaluate q (nth i x 0) * evaluate (ps i) t).
Proof.
  intros D Hp Lq t.
  assert (P : forall i, (i < length x)%nat -> (length (ps i) = length x) /\ forall s, evaluate (ps i) s = lprod x i s (length x)).
  { intros i Hi. destruct (lagrange_ok x i) as [p [E [Ev L]]]. rewrite (Hp i Hi) in E. injection E as <-. auto. }
  set (r := padd q (pscal (-1) (psum (length x) (fun i => pscal (evaluate q (nth i x 0)) (ps i))))).
  assert (R : forall s, heval r s = evaluate q s - rsum (length x) (fun i => evaluate q (nth i x 0) * evaluate (ps i) s)).
  { intros s. rewrite heval_eval. unfold r. rewrite padd_eval, pscal_eval, psum_eval.
    rewrite (rsum_ext (length x) (fun i => evaluate (pscal _ _) s) (fun i => evaluate q (nth i x 0) * evaluate (ps i) s)).
    - ring.
    - intros i Hi. apply pscal_eval. }
  assert (Z : heval r t = 0).
  { apply (roots_zero x); [apply distinct_NoDup; exact D| |].
    - unfold r. rewrite padd_len, pscal_len. apply Nat.max_lub; [exact Lq|]. apply psum_len. intros i Hi. rewrite pscal_len.
      destruct (P i Hi) as [-> _]. lia.
    - intros s Hs. apply In_nth with (d := 0) in Hs. destruct Hs as [j [Hj <-]]. rewrite R.
      rewrite (rsum_single (length x) j); [|exact Hj|].
      + destruct (P j Hj) as [_ ->]. rewrite lprod_self by (auto; lia). ring.
      + intros i Hi N. destruct (P i Hi) as [_ ->]. rewrite lprod_other by auto. ring. }
  rewrite R in Z. lra.
Qed.

(** basis_polys *)
Lemma fold_basis x : forall l acc, exists b, fold_res (fun i acc => p <- lagrange x i ;; Ok (acc ++ [p])) l acc = Ok (acc ++ b) /\
  length b = length l /\ forall k, (k < length l)%nat -> lagrange x (nth k l 0%nat) = Ok (nth k b []).
Proof.
  induction l as [|i l IH]; intros acc; cbn [fold_res].
  - exists []. rewrite app_nil_r. split; [reflexivity|]. split; [reflexivity|]. cbn. lia.
  - destruct (lagrange_ok x i) as [p [E _]]. rewrite E. cbn [bind]. destruct (IH (acc ++ [p])) as [b [E' [L K]]].
    exists (p :: b). rewrite E'. split; [rewrite <- app_assoc; reflexivity|]. split; [cbn; lia|].
    intros [|k] Hk; [exact E|]. cbn. apply K. cbn in Hk. lia.
Qed.
Lemma basis_ok x : exists b, basis_polys x = Ok b /\ length b = length x /\
  forall k, (k < length x)%nat -> lagrange x k = Ok (nth k b []).
Proof.
  unfold basis_polys. destruct (fold_basis x (seq 0 (length x)) []) as [b [E [L K]]]. exists b. rewrite seq_length in *.
  split; [exact E|]. split; [exact L|]. intros k Hk. specialize (K k Hk). rewrite seq_nth in K by exact Hk. exact K.
Qed.
