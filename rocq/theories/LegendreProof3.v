(** leggauss: what the code returns, for exact and for arbitrary eigenvalues. *)
From Coq Require Import Reals Lra Lia List.
From Coquelicot Require Import Coquelicot.
From Verif Require Import Base Sum PolyModel PolyProof LegendreModel LegendreSpec LegendreProof LegendreProof2.
Import List ListNotations.
Open Scope R_scope.

(** ** the companion matrix *)
Definition eigenvalue (n : nat) (M : nat -> nat -> R) (lam : R) : Prop :=
  exists v : nat -> R, (exists i, (i < n)%nat /\ v i <> 0) /\ forall i, (i < n)%nat -> rsum n (fun j => M i j * v j) = lam * v i.

Definition sc (k : nat) : R := / sqrt (INR (2 * k + 1)).
Lemma sc_pos k : 0 < sc k.
Proof. apply Rinv_0_lt_compat, sqrt_lt_R0, lt_0_INR. lia. Qed.
Lemma sc_sq k : sc k * sc k = / INR (2 * k + 1).
Proof. unfold sc. rewrite <- Rinv_mult. rewrite sqrt_sqrt; [reflexivity|]. apply pos_INR. Qed.
Lemma comp_up n i : legcompanion n i (i + 1) = INR (i + 1) * sc i * sc (i + 1).
Proof. unfold legcompanion. rewrite Nat.eqb_refl. unfold sc, Rdiv. ring. Qed.
Lemma comp_dn n i : legcompanion n (i + 1) i = INR (i + 1) * sc i * sc (i + 1).
Proof.
  unfold legcompanion. destruct (Nat.eqb_spec i (i + 1 + 1)); [lia|]. rewrite Nat.eqb_refl. unfold sc, Rdiv. ring.
Qed.
Lemma comp_0 n i j : j <> (i + 1)%nat -> i <> (j + 1)%nat -> legcompanion n i j = 0.
Proof. intros A B. unfold legcompanion. destruct (Nat.eqb_spec j (i + 1)); [lia|]. destruct (Nat.eqb_spec i (j + 1)); [lia|]. reflexivity. Qed.

(** row i of the product *)
Lemma comp_row n v i : (i < n)%nat -> rsum n (fun j => legcompanion n i j * v j) =
  (if Nat.eqb i 0 then 0 else INR i * sc (i - 1) * sc i * v (i - 1)%nat) + (if Nat.ltb (i + 1) n then INR (i + 1) * sc i * sc (i + 1) * v (i + 1)%nat else 0).
Proof.
  intros H.
  rewrite (rsum_ext n _ (fun j => (if Nat.eqb j (i - 1) then (if Nat.eqb i 0 then 0 else INR i * sc (i - 1) * sc i * v (i - 1)%nat) else 0)
     + (if Nat.eqb j (i + 1) then INR (i + 1) * sc i * sc (i + 1) * v (i + 1)%nat else 0))).
  - rewrite rsum_plus. f_equal.
    + rewrite (rsum_single n (i - 1)); [now rewrite Nat.eqb_refl|lia|]. intros j _ N. apply Nat.eqb_neq in N. now rewrite N.
    + destruct (Nat.ltb_spec (i + 1) n) as [G|G].
      * rewrite (rsum_single n (i + 1)); [now rewrite Nat.eqb_refl|lia|]. intros j _ N. apply Nat.eqb_neq in N. now rewrite N.
      * apply rsum_zero. intros j Hj. destruct (Nat.eqb_spec j (i + 1)); [lia|reflexivity].
  - intros j Hj. destruct (Nat.eqb_spec j (i + 1)) as [-> |N1].
    + rewrite comp_up. destruct (Nat.eqb_spec (i + 1) (i - 1)); [lia|]. ring.
    + destruct (Nat.eqb_spec j (i - 1)) as [-> |N2].
      * destruct (Nat.eqb_spec i 0) as [-> |N0]; [rewrite comp_0 by lia; ring|].
        replace i with (i - 1 + 1)%nat at 1 by lia. rewrite comp_dn. replace (i - 1 + 1)%nat with i by lia. ring.
      * rewrite comp_0 by lia. ring.
Qed.

Lemma leg3 i x : INR (i + 1) * L (i + 1) x + (if Nat.eqb i 0 then 0 else INR i * L (i - 1) x) = INR (2 * i + 1) * x * L i x.
Proof.
  destruct i as [|i].
  - cbn [Nat.eqb]. change (0 + 1)%nat with 1%nat. rewrite L0, L1. cbn. ring.
  - cbn [Nat.eqb]. pose proof (LSS i x) as E. replace (S i + 1)%nat with (S (S i)) by lia. replace (S i - 1)%nat with i by lia.
    replace (2 * S i + 1)%nat with (2 * i + 3)%nat by lia. replace (INR (S (S i))) with (INR (i + 2)) by (f_equal; lia).
    replace (INR (S i)) with (INR (i + 1)) by (f_equal; lia). lra.
Qed.

(** the eigenvalues are exactly the roots of L_n *)
Lemma companion_roots n x : (0 < n)%nat -> eigenvalue n (legcompanion n) x <-> L n x = 0.
Proof.
  intros Hn. split.
  - intros [v [[i0 [Hi0 Ni0]] E]].
    assert (F : forall i, (i < n)%nat -> v i * sc i = v 0%nat * sc 0 * L i x).
    { induction i as [i IH] using (well_founded_induction Wf_nat.lt_wf). intros Hi.
      destruct i as [|i]; [rewrite L0; ring|].
      pose proof (E i ltac:(lia)) as Ei. rewrite comp_row in Ei by lia. destruct (Nat.ltb_spec (i + 1) n) as [_|]; [|lia].
      pose proof (leg3 i x) as Q. pose proof (sc_sq i) as Sq. pose proof (sc_pos i) as P.
      assert (N1 : INR (i + 1) <> 0) by (apply not_0_INR; lia). assert (N2 : INR (2 * i + 1) <> 0) by (apply not_0_INR; lia).
      replace (S i) with (i + 1)%nat by lia. apply (Rmult_eq_reg_l (INR (i + 1))); [|exact N1].
      assert (Vi : v i = v 0%nat * sc 0 * L i x * (INR (2 * i + 1) * sc i)).
      { rewrite <- (IH i) by lia. transitivity (v i * INR (2 * i + 1) * (sc i * sc i)); [rewrite Sq; field; exact N2|ring]. }
      apply (Rmult_eq_reg_l (sc i)); [|lra].
      destruct (Nat.eqb_spec i 0) as [Z|Z].
      + transitivity (x * v i); [rewrite <- Ei; ring|]. rewrite Vi.
        transitivity (v 0%nat * sc 0 * sc i * (INR (2 * i + 1) * x * L i x)); [ring|]. rewrite <- Q. ring.
      + pose proof (IH (i - 1)%nat ltac:(lia) ltac:(lia)) as V1.
        transitivity (x * v i - INR i * sc i * (v (i - 1)%nat * sc (i - 1))); [rewrite <- Ei; ring|]. rewrite V1, Vi.
        transitivity (v 0%nat * sc 0 * sc i * (INR (2 * i + 1) * x * L i x - INR i * L (i - 1) x)); [ring|]. rewrite <- Q. ring. }
    assert (V0 : v 0%nat <> 0). { intros Z. apply Ni0. pose proof (F i0 Hi0) as Q. rewrite Z in Q. pose proof (sc_pos i0).
      apply (Rmult_eq_reg_r (sc i0)); lra. }
    pose proof (E (n - 1)%nat ltac:(lia)) as En. rewrite comp_row in En by lia. destruct (Nat.ltb_spec (n - 1 + 1) n) as [|_]; [lia|].
    pose proof (leg3 (n - 1) x) as Q. pose proof (F (n - 1)%nat ltac:(lia)) as Fn. replace (n - 1 + 1)%nat with n in Q by lia.
    pose proof (sc_sq (n - 1)) as Sq. pose proof (sc_pos (n - 1)) as P. pose proof (sc_pos 0) as P0.
    assert (N2 : INR (2 * (n - 1) + 1) <> 0) by (apply not_0_INR; lia). assert (Nn : INR n <> 0) by (apply not_0_INR; lia).
    assert (Vn : v (n - 1)%nat = v 0%nat * sc 0 * L (n - 1) x * (INR (2 * (n - 1) + 1) * sc (n - 1))).
    { rewrite <- Fn. transitivity (v (n - 1)%nat * INR (2 * (n - 1) + 1) * (sc (n - 1) * sc (n - 1))); [rewrite Sq; field; exact N2|ring]. }
    assert (Z : v 0%nat * sc 0 * sc (n - 1) * INR n * L n x = 0).
    { destruct (Nat.eqb_spec (n - 1) 0) as [Z|Z].
      - transitivity (v 0%nat * sc 0 * sc (n - 1) * (INR (2 * (n - 1) + 1) * x * L (n - 1) x)); [rewrite <- Q; ring|].
        transitivity (x * v (n - 1)%nat); [rewrite Vn; ring|]. rewrite <- En. ring.
      - pose proof (F (n - 1 - 1)%nat ltac:(lia)) as V1.
        transitivity (v 0%nat * sc 0 * sc (n - 1) * (INR (2 * (n - 1) + 1) * x * L (n - 1) x) - INR (n - 1) * sc (n - 1) * (v 0%nat * sc 0 * L (n - 1 - 1) x)).
        { rewrite <- Q. ring. }
        rewrite <- V1. transitivity (x * v (n - 1)%nat - INR (n - 1) * sc (n - 1) * (v (n - 1 - 1)%nat * sc (n - 1 - 1))); [rewrite Vn; ring|]. rewrite <- En. ring. }
    apply (Rmult_eq_reg_l (v 0%nat * sc 0 * sc (n - 1) * INR n)); [rewrite Z; ring|].
    repeat apply Rmult_integral_contrapositive_currified; auto; lra.
  - intros Z. exists (fun k => L k x / sc k). split.
    + exists 0%nat. split; [exact Hn|]. rewrite L0. unfold Rdiv. rewrite Rmult_1_l. apply Rinv_neq_0_compat. pose proof (sc_pos 0). lra.
    + intros i Hi. rewrite comp_row by exact Hi. pose proof (leg3 i x) as Q. pose proof (sc_sq i) as Sq. pose proof (sc_pos i) as P.
      pose proof (sc_pos (i + 1)) as P1. pose proof (sc_pos (i - 1)) as Pm.
      assert (N2 : INR (2 * i + 1) <> 0) by (apply not_0_INR; lia).
      assert (Inv : / sc i = INR (2 * i + 1) * sc i).
      { apply (Rmult_eq_reg_l (sc i)); [|lra]. rewrite Rinv_r by lra. transitivity (INR (2 * i + 1) * (sc i * sc i)); [rewrite Sq; field; exact N2|ring]. }
      unfold Rdiv at 3. rewrite Inv.
      transitivity (sc i * (INR (2 * i + 1) * x * L i x)); [|ring]. rewrite <- Q.
      assert (A : (if (i + 1 <? n)%nat then INR (i + 1) * sc i * sc (i + 1) * (L (i + 1) x / sc (i + 1)) else 0) = sc i * (INR (i + 1) * L (i + 1) x)).
      { destruct (Nat.ltb_spec (i + 1) n) as [G|G]; [field; lra|]. replace (i + 1)%nat with n by lia. rewrite Z. ring. }
      rewrite A. destruct (Nat.eqb_spec i 0); field; lra.
Qed.

(** ** symmetrisation *)
Lemma sym_packet_id s n lo len v : (forall i, (i < n)%nat -> s * v (n - 1 - i)%nat = v i) ->
  forall w, (forall i, (i < n)%nat -> w i = v i) -> forall i, (i < n)%nat -> sym_packet s n lo len w i = v i.
Proof.
  intros H w W i Hi. unfold sym_packet. destruct (_ && _)%bool; [|apply W; exact Hi].
  rewrite !W by lia. rewrite H by exact Hi. lra.
Qed.
Lemma sym_packets_id s n P v : (forall i, (i < n)%nat -> s * v (n - 1 - i)%nat = v i) ->
  forall k lo w, (forall i, (i < n)%nat -> w i = v i) -> forall i, (i < n)%nat -> sym_packets s n P lo k w i = v i.
Proof.
  intros H. induction k as [|k IH]; intros lo w W i Hi; cbn [sym_packets]; [apply W; exact Hi|].
  apply IH; [|exact Hi]. intros j Hj. apply (sym_packet_id s n lo P v H w W j Hj).
Qed.
Lemma sym_assign_id s P n v : (forall i, (i < n)%nat -> s * v (n - 1 - i)%nat = v i) -> forall i, (i < n)%nat -> sym_assign s P n v i = v i.
Proof.
  intros H i Hi. unfold sym_assign. apply (sym_packets_id s n 1 v H); [|exact Hi]. intros j Hj. apply (sym_packets_id s n P v H); auto.
Qed.

(** ** leggauss *)
Lemma co_unit deg k : co (repeat 0 deg ++ [1]) k = if Nat.eqb k deg then 1 else 0.
Proof.
  unfold co. destruct (lt_dec k deg) as [G|G].
  - rewrite app_nth1 by (rewrite repeat_length; lia). rewrite nth_repeat. destruct (Nat.eqb_spec k deg); [lia|reflexivity].
  - rewrite app_nth2 by (rewrite repeat_length; lia). rewrite repeat_length. destruct (Nat.eqb_spec k deg) as [-> |N].
    + now rewrite Nat.sub_diag.
    + destruct (k - deg)%nat as [|[|q]] eqn:E; [lia|reflexivity|reflexivity].
Qed.
Lemma series_unit deg x : series (repeat 0 deg ++ [1]) x = L deg x.
Proof.
  unfold series. rewrite app_length, repeat_length. cbn [length]. rewrite (rsum_single _ deg); [|lia|].
  - rewrite co_unit, Nat.eqb_refl. ring.
  - intros i _ N. rewrite co_unit. apply Nat.eqb_neq in N. rewrite N. ring.
Qed.

Lemma fill_loop1 n (g : nat -> res R) (h : nat -> R) : (forall i, (i < n)%nat -> g i = Ok (h i)) -> forall v0,
  exists v, for_loop n 0 (fun i v => a <- g i ;; Ok (upd v i a)) v0 = Ok v /\ forall i, (i < n)%nat -> v i = h i.
Proof.
  intros H v0.
  destruct (for_loop_inv (fun k v => forall i, (i < k)%nat -> v i = h i) n 0 (fun i v => a <- g i ;; Ok (upd v i a)) v0) as [v [E I]].
  - intros; lia.
  - intros k v Hk I. rewrite H by lia. cbn [bind]. eexists. split; [reflexivity|]. intros i Hi. destruct (Nat.eq_dec i k) as [-> |N]; [apply upd_same|].
    rewrite upd_other by congruence. apply I. lia.
  - exists v. split; [exact E|]. intros i Hi. apply I. lia.
Qed.
Lemma fill_loop2 n (g1 g2 : nat -> res R) (h1 h2 : nat -> R) : (forall i, (i < n)%nat -> g1 i = Ok (h1 i) /\ g2 i = Ok (h2 i)) -> forall p0,
  exists v w, for_loop n 0 (fun i '(dy, df) => a <- g1 i ;; b <- g2 i ;; Ok (upd dy i a, upd df i b)) p0 = Ok (v, w) /\
   forall i, (i < n)%nat -> v i = h1 i /\ w i = h2 i.
Proof.
  intros H p0.
  destruct (for_loop_inv (fun k (p : (nat -> R) * (nat -> R)) => forall i, (i < k)%nat -> fst p i = h1 i /\ snd p i = h2 i) n 0
    (fun i '(dy, df) => a <- g1 i ;; b <- g2 i ;; Ok (upd dy i a, upd df i b)) p0) as [[v w] [E I]].
  - intros; lia.
  - intros k [v w] Hk I. destruct (H k ltac:(lia)) as [E1 E2]. rewrite E1, E2. cbn [bind]. eexists. split; [reflexivity|]. intros i Hi. cbn [fst snd].
    destruct (Nat.eq_dec i k) as [-> |N]; [now rewrite !upd_same|]. rewrite !upd_other by congruence. apply I. lia.
  - exists v, w. split; [exact E|]. intros i Hi. apply (I i). lia.
Qed.

(** the nodes after the Newton step *)
Definition newton (deg : nat) (eig : nat -> R) (i : nat) : R := eig i - L deg (eig i) / D deg (eig i).
Lemma maxabs_ext n v w : (forall i, (i < n)%nat -> v i = w i) -> maxabs n v = maxabs n w.
Proof. induction n as [|n IH]; intros H; cbn; [reflexivity|]. rewrite IH by (intros; apply H; lia). now rewrite H by lia. Qed.

Lemma leggauss_ok P deg eig : (1 <= deg)%nat -> exists fm df x0,
  (forall i, (i < deg)%nat -> x0 i = newton deg eig i) /\
  (forall i, (i < deg)%nat -> fm i = L (deg - 1) (newton deg eig i)) /\
  (forall i, (i < deg)%nat -> df i = D deg (eig i)) /\
  let w := sym_assign 1 P deg (fun i => 1 / (fm i / maxabs deg fm * (df i / maxabs deg df))) in
  leggauss P deg eig = Ok (sym_assign (-1) P deg x0, fun i => w i * (2 / rsum deg w)).
Proof.
  intros Hd. set (c := repeat 0 deg ++ [1]).
  assert (Lc : length c = (deg + 1)%nat) by (unfold c; rewrite app_length, repeat_length; reflexivity).
  destruct (legder_ok c) as [dc [Edc [Ldc Ddc]]]; [lia|].
  assert (Sdc : forall x, series dc x = D deg x).
  { intros x. pose proof (is_derive_unique _ _ _ (Ddc x)) as E1. pose proof (is_derive_unique _ _ _ (derive_L' deg x)) as E2.
    rewrite <- E1, <- E2. apply Derive_ext. intros t. apply series_unit. }
  destruct (fill_loop2 deg (fun i => legval (eig i) c) (fun i => legval (eig i) dc) (fun i => L deg (eig i)) (fun i => D deg (eig i))) with (p0 := ((fun _ : nat => 0), (fun _ : nat => 0))) as [dy [df [E1 I1]]].
  { intros i Hi. split.
    - rewrite legval_ok; [unfold c; now rewrite series_unit|]. unfold c. destruct deg; discriminate.
    - rewrite legval_ok; [now rewrite Sdc|]. intros ->. cbn in Ldc. lia. }
  destruct (fill_loop1 deg (fun i => legval (eig i - dy i / df i) (tl c)) (fun i => L (deg - 1) (newton deg eig i))) with (v0 := fun _ : nat => 0) as [fm [E2 I2]].
  { intros i Hi. assert (Et : tl c = repeat 0 (deg - 1) ++ [1]) by (unfold c; destruct deg as [|d]; [lia|]; cbn; now rewrite Nat.sub_0_r).
    rewrite Et. rewrite legval_ok by (destruct (deg - 1)%nat; discriminate). rewrite series_unit. unfold newton.
    destruct (I1 i Hi) as [-> ->]. reflexivity. }
  exists fm, df, (fun i => eig i - dy i / df i).
  split; [intros i Hi; unfold newton; destruct (I1 i Hi) as [-> ->]; reflexivity|].
  split; [exact I2|]. split; [intros i Hi; apply (I1 i Hi)|].
  unfold leggauss. fold c. rewrite Edc. cbn [bind]. rewrite E1. cbn [bind]. rewrite E2. cbn [bind]. reflexivity.
Qed.

Lemma leggauss_weights_sum P deg eig x w : (1 <= deg)%nat -> leggauss P deg eig = Ok (x, w) -> rsum deg w <> 0 -> rsum deg w = 2.
Proof.
  intros Hd E N. destruct (leggauss_ok P deg eig Hd) as [fm [df [x0 [_ [_ [_ E']]]]]]. rewrite E in E'. cbv zeta in E'.
  set (w0 := sym_assign 1 P deg _) in E'. injection E' as _ ->. rewrite rsum_scal_r in *.
  field. intros Z. apply N. rewrite Z. ring.
Qed.

(** parity *)
Lemma L_parity n : forall x, L n (- x) = (-1) ^ n * L n x /\ L (S n) (- x) = (-1) ^ (S n) * L (S n) x.
Proof.
  induction n as [|n IH]; intros x; [rewrite !L0, !L1; cbn; lra|]. destruct (IH x) as [A B]. split; [exact B|].
  rewrite !LSS', A, B. cbn [pow]. field. apply INR2.
Qed.
Lemma K_even n x : K n (- x) (- x) = K n x x.
Proof.
  unfold K. apply rsum_ext. intros i _. destruct (L_parity i x) as [-> _].
  transitivity (INR (2 * i + 1) * L i x * L i x * ((-1) ^ i * (-1) ^ i)); [ring|]. rewrite <- Rpow_mult_distr.
  replace (-1 * -1) with 1 by ring. rewrite pow1. ring.
Qed.
Lemma L_at1 n : L n 1 = 1 /\ L (S n) 1 = 1.
Proof.
  induction n as [|n [A B]]; [rewrite L0, L1; lra|]. split; [exact B|]. rewrite LSS', A, B. inr.
  field. pose proof (pos_INR n). lra.
Qed.

(** two strictly increasing enumerations of the same set coincide *)
Lemma mono_nat n (s : nat -> nat) : (forall k, (k < n)%nat -> (s k < n)%nat) -> (forall i j, (i < j < n)%nat -> (s i < s j)%nat) ->
  forall k, (k < n)%nat -> s k = k.
Proof.
  intros B M. assert (Lo : forall k, (k < n)%nat -> (k <= s k)%nat).
  { induction k as [|k IH]; intros H; [lia|]. specialize (M k (S k) ltac:(lia)). specialize (IH ltac:(lia)). lia. }
  assert (Hi : forall d k, (k + d = n - 1)%nat -> (k < n)%nat -> (s k <= k)%nat).
  { induction d as [|d IH]; intros k E H; [specialize (B k H); lia|]. specialize (M k (S k) ltac:(lia)). specialize (IH (S k) ltac:(lia) ltac:(lia)). lia. }
  intros k H. specialize (Lo k H). specialize (Hi (n - 1 - k)%nat k ltac:(lia) H). lia.
Qed.
Lemma increasing_unique n (f g : nat -> R) : (forall i j, (i < j < n)%nat -> f i < f j) -> (forall i j, (i < j < n)%nat -> g i < g j) ->
  (forall k, (k < n)%nat -> exists i, (i < n)%nat /\ g k = f i) -> forall k, (k < n)%nat -> g k = f k.
Proof.
  intros F G I.
  assert (C : exists s : nat -> nat, forall k, (k < n)%nat -> (s k < n)%nat /\ g k = f (s k)).
  { clear F G. induction n as [|m IH]; [exists (fun _ => 0%nat); intros; lia|].
    assert (C' : forall m', (m' <= S m)%nat -> exists s : nat -> nat, forall k, (k < m')%nat -> (s k < S m)%nat /\ g k = f (s k)).
    { induction m' as [|m' IHm]; intros Hm; [exists (fun _ => 0%nat); intros; lia|]. destruct (IHm ltac:(lia)) as [s Hs]. destruct (I m' ltac:(lia)) as [i Hi].
      exists (upd s m' i). intros k Hk. destruct (Nat.eq_dec k m') as [-> |N]; [rewrite upd_same; exact Hi|]. rewrite upd_other by congruence. apply Hs. lia. }
    apply (C' (S m)). lia. }
  destruct C as [s Hs]. intros k Hk. destruct (Hs k Hk) as [_ E]. rewrite E. f_equal. apply (mono_nat n s); [intros j Hj; apply Hs; exact Hj| |exact Hk].
  intros i j Hij. destruct (Hs i ltac:(lia)) as [Bi Ei]. destruct (Hs j ltac:(lia)) as [Bj Ej]. specialize (G i j Hij).
  destruct (lt_eq_lt_dec (s i) (s j)) as [[Q|Q]|Q]; [exact Q| |].
  - rewrite Ei, Ej, Q in G. lra.
  - pose proof (F (s j) (s i) ltac:(lia)). lra.
Qed.

Lemma all_roots m xs : (forall k, (k < S m)%nat -> L (S m) (xs k) = 0) -> (forall i j, (i < S m)%nat -> (j < S m)%nat -> xs i = xs j -> i = j) ->
  forall y, L (S m) y = 0 -> exists i, (i < S m)%nat /\ y = xs i.
Proof.
  intros Rt Ds y Hy.
  destruct (List.in_dec Req_EM_T y (map xs (seq 0 (S m)))) as [I|I].
  { apply in_map_iff in I. destruct I as [k [E Hk]]. apply in_seq in Hk. exists k. split; [lia|congruence]. }
  exfalso. destruct (legendre_poly (S m)) as [p [Lp Ep]].
  assert (Z : heval p 1 = 0).
  { apply (roots_zero (y :: map xs (seq 0 (S m)))).
    - constructor; [exact I|]. apply (NoDup_nth _ (xs 0%nat)). rewrite map_length, seq_length. intros i j Hi Hj E.
      rewrite !map_nth, !seq_nth in E by assumption. apply Ds; auto.
    - change (length (y :: map xs (seq 0 (S m)))) with (S (length (map xs (seq 0 (S m))))). rewrite map_length, seq_length. lia.
    - intros r [<-|Hr]; [now rewrite heval_eval, Ep|]. apply in_map_iff in Hr. destruct Hr as [k [<- Hk]]. apply in_seq in Hk.
      rewrite heval_eval, Ep. apply Rt. lia. }
  rewrite heval_eval, Ep in Z. destruct (L_at1 m) as [_ E]. lra.
Qed.
Lemma roots_antisym m xs : (forall k, (k < S m)%nat -> L (S m) (xs k) = 0) -> (forall i j, (i < j < S m)%nat -> xs i < xs j) ->
  forall k, (k < S m)%nat -> - xs (m - k)%nat = xs k.
Proof.
  intros Rt In. assert (Ds : forall i j, (i < S m)%nat -> (j < S m)%nat -> xs i = xs j -> i = j).
  { intros i j Hi Hj E. destruct (lt_eq_lt_dec i j) as [[Q|Q]|Q]; [|exact Q|]; [pose proof (In i j ltac:(lia))|pose proof (In j i ltac:(lia))]; lra. }
  apply (increasing_unique (S m) xs (fun k => - xs (m - k)%nat)); [exact In| |].
  - intros i j Hij. pose proof (In (m - j)%nat (m - i)%nat ltac:(lia)). lra.
  - intros k Hk. apply (all_roots m xs Rt Ds). destruct (L_parity (S m) (xs (m - k)%nat)) as [-> _]. rewrite Rt by lia. ring.
Qed.

Lemma maxabs_pos n v i : (i < n)%nat -> v i <> 0 -> 0 < maxabs n v.
Proof.
  intros Hi N. assert (Rabs (v i) <= maxabs n v).
  { clear N. induction n as [|n IH]; [lia|]. cbn [maxabs]. destruct (Nat.eq_dec i n) as [-> |Ne]; [apply Rmax_r|].
    eapply Rle_trans; [apply IH; lia|apply Rmax_l]. }
  pose proof (Rabs_pos_lt _ N). lra.
Qed.

Lemma leggauss_exact P m eig : (forall k, (k < S m)%nat -> L (S m) (eig k) = 0) -> (forall i j, (i < j < S m)%nat -> eig i < eig j) ->
  exists x w, leggauss P (S m) eig = Ok (x, w) /\ (forall k, (k < S m)%nat -> x k = eig k /\ w k = 2 / K (S m) (eig k) (eig k)).
Proof.
  intros Rt In. assert (Ds : forall i j, (i < S m)%nat -> (j < S m)%nat -> eig i = eig j -> i = j).
  { intros i j Hi Hj E. destruct (lt_eq_lt_dec i j) as [[Q|Q]|Q]; [|exact Q|]; [pose proof (In i j ltac:(lia))|pose proof (In j i ltac:(lia))]; lra. }
  pose proof (roots_antisym m eig Rt In) as An.
  destruct (leggauss_ok P (S m) eig ltac:(lia)) as [fm [df [x0 [X [Fm [Df E]]]]]]. cbv zeta in E.
  assert (Nw : forall i, (i < S m)%nat -> newton (S m) eig i = eig i) by (intros i Hi; unfold newton; rewrite Rt by exact Hi; unfold Rdiv; ring).
  assert (Fm' : forall i, (i < S m)%nat -> fm i = L m (eig i)) by (intros i Hi; rewrite Fm, Nw by exact Hi; f_equal; lia).
  set (w0 := fun i : nat => 1 / (fm i / maxabs (S m) fm * (df i / maxabs (S m) df))) in E.
  assert (Kd : forall k, (k < S m)%nat -> K (S m) (eig k) (eig k) = INR (S m) * df k * fm k).
  { intros k Hk. rewrite (K_diag m eig Rt k Hk), Df, Fm' by exact Hk. reflexivity. }
  assert (Kp : forall k, 1 <= K (S m) (eig k) (eig k)) by (intros; apply K_pos).
  assert (Nf : forall k, (k < S m)%nat -> fm k <> 0 /\ df k <> 0).
  { intros k Hk. pose proof (Kp k) as Q. rewrite Kd in Q by exact Hk. split; intros Z; rewrite Z in Q; lra. }
  pose proof (maxabs_pos (S m) fm 0 ltac:(lia) (proj1 (Nf 0%nat ltac:(lia)))) as Pf.
  pose proof (maxabs_pos (S m) df 0 ltac:(lia) (proj2 (Nf 0%nat ltac:(lia)))) as Pd.
  set (F := maxabs (S m) fm) in *. set (G := maxabs (S m) df) in *.
  assert (PN : 0 < INR (S m)) by (apply lt_0_INR; lia).
  set (C := F * G * INR (S m)). assert (PC : 0 < C) by (unfold C; repeat apply Rmult_lt_0_compat; assumption).
  assert (W0 : forall k, (k < S m)%nat -> w0 k = C / K (S m) (eig k) (eig k)).
  { intros k Hk. rewrite Kd by exact Hk. unfold w0, C. destruct (Nf k Hk). field. repeat split; auto; lra. }
  assert (Sw : forall i, (i < S m)%nat -> sym_assign 1 P (S m) w0 i = w0 i).
  { apply sym_assign_id. intros i Hi. rewrite !W0 by lia. replace (S m - 1 - i)%nat with (m - i)%nat by lia.
    rewrite <- (An i Hi). rewrite K_even. ring. }
  assert (Sx : forall i, (i < S m)%nat -> sym_assign (-1) P (S m) x0 i = x0 i).
  { apply sym_assign_id. intros i Hi. rewrite !X, !Nw by lia. replace (S m - 1 - i)%nat with (m - i)%nat by lia.
    rewrite <- (An i Hi). ring. }
  eexists. eexists. split; [exact E|]. intros k Hk. cbv beta. rewrite Sx, Sw, X, Nw by exact Hk. split; [reflexivity|].
  rewrite (rsum_ext (S m) (sym_assign 1 P (S m) w0) (fun k => C / 2 * (2 / K (S m) (eig k) (eig k)))).
  - rewrite rsum_scal, (gauss_sum m eig Rt Ds). rewrite W0 by exact Hk. field. pose proof (Kp k). split; lra.
  - intros i Hi. rewrite Sw, W0 by exact Hi. pose proof (Kp i). field. lra.
Qed.

(** the affine change of variables *)
Lemma poly_half p : exists q, (length q <= length p)%nat /\ forall x, evaluate q x = evaluate p ((x + 1) / 2).
Proof.
  induction p as [|a p [q [Lq Eq]]]; [exists []; split; [lia|reflexivity]|].
  destruct q as [|b q].
  - exists [a]. split; [cbn; lia|]. intros x. rewrite <- (heval_eval (a :: p)). cbn [heval]. rewrite heval_eval, <- Eq. unfold evaluate, co. cbn. ring.
  - exists (padd [a] (pscal (1/2) (padd (b :: q) (0 :: b :: q)))). split.
    + rewrite padd_len, pscal_len, padd_len. cbn [length] in *. lia.
    + intros x. rewrite padd_eval, pscal_eval, padd_eval. rewrite <- (heval_eval (0 :: b :: q)), <- (heval_eval (a :: p)), <- (heval_eval [a]).
      cbn [heval]. rewrite (heval_eval p), <- Eq. rewrite <- heval_eval. cbn [heval]. field.
Qed.
Lemma quad_scaled n x w p : (forall q, (length q <= length p)%nat -> is_RInt (evaluate q) (-1) 1 (quad n x w (evaluate q))) ->
  is_RInt (evaluate p) 0 1 (quad n (scaled_nodes x) (scaled_weights w) (evaluate p)).
Proof.
  intros H. destruct (poly_half p) as [q [Lq Eq]]. specialize (H q Lq).
  assert (C : is_RInt (fun y => scal 2 (evaluate q (2 * y + -1))) 0 1 (quad n x w (evaluate q))).
  { apply (is_RInt_comp_lin (evaluate q) 2 (-1) 0 1). replace (2 * 0 + -1) with (-1) by ring. replace (2 * 1 + -1) with 1 by ring. exact H. }
  apply (is_RInt_fext (fun y => / 2 * scal 2 (evaluate q (2 * y + -1))) _ _ _ (/ 2 * quad n x w (evaluate q))).
  - intros y. rewrite Eq. unfold scal; cbn; unfold mult; cbn. replace ((2 * y + -1 + 1) / 2) with y by field. field.
  - unfold quad, scaled_nodes, scaled_weights. rewrite <- rsum_scal. apply rsum_ext. intros k _. rewrite Eq. field.
  - apply is_RInt_Rscal. exact C.
Qed.

(** symmetric solver output *)
Lemma D_parity n x : D n (- x) = (-1) ^ (S n) * D n x.
Proof.
  assert (G : D n (- x) = (-1) ^ (S n) * D n x /\ D (S n) (- x) = (-1) ^ (S (S n)) * D (S n) x); [|tauto].
  induction n as [|n [A B]]; [rewrite !D0, !D1; cbn; lra|]. split; [exact B|].
  rewrite !D_step, A. destruct (L_parity n x) as [_ ->]. cbn [pow]. ring.
Qed.
Lemma newton_odd n y : - y - L n (- y) / D n (- y) = - (y - L n y / D n y).
Proof.
  destruct (L_parity n y) as [-> _]. rewrite D_parity. cbn [pow].
  assert (Q : (-1) ^ n <> 0) by (apply pow_nonzero; lra).
  destruct (Req_dec (D n y) 0) as [Z|Z].
  - rewrite Z, Rmult_0_r. unfold Rdiv. rewrite Rinv_0. ring.
  - field. split; assumption.
Qed.
Lemma sign_sq n : (-1) ^ n * (-1) ^ n = 1.
Proof. rewrite <- Rpow_mult_distr. replace (-1 * -1) with 1 by ring. apply pow1. Qed.
Lemma leggauss_sym P deg eig x w : (1 <= deg)%nat -> leggauss P deg eig = Ok (x, w) ->
  (forall k, (k < deg)%nat -> eig (deg - 1 - k)%nat = - eig k) ->
  forall k, (k < deg)%nat -> x (deg - 1 - k)%nat = - x k /\ w (deg - 1 - k)%nat = w k.
Proof.
  intros Hd E An k Hk. destruct (leggauss_ok P deg eig Hd) as [fm [df [x0 [X [Fm [Df E']]]]]]. rewrite E in E'. cbv zeta in E'.
  set (w0 := fun i : nat => 1 / (fm i / maxabs deg fm * (df i / maxabs deg df))) in E'. injection E' as -> ->.
  assert (X' : forall i, (i < deg)%nat -> newton deg eig (deg - 1 - i)%nat = - newton deg eig i).
  { intros i Hi. unfold newton. rewrite (An i Hi). apply newton_odd. }
  assert (Sx : forall i, (i < deg)%nat -> sym_assign (-1) P deg x0 i = x0 i).
  { apply sym_assign_id. intros i Hi. rewrite !X by lia. rewrite X' by exact Hi. ring. }
  assert (W0 : forall i, (i < deg)%nat -> w0 (deg - 1 - i)%nat = w0 i).
  { intros i Hi. unfold w0. rewrite !Fm, !Df by lia. rewrite X', An by exact Hi.
    destruct (L_parity (deg - 1) (newton deg eig i)) as [-> _]. rewrite D_parity. replace (S deg) with (2 + (deg - 1))%nat by lia. rewrite pow_add.
    f_equal. unfold Rdiv. transitivity (L (deg - 1) (newton deg eig i) * / maxabs deg fm * (D deg (eig i) * / maxabs deg df) * ((-1) ^ (deg - 1) * (-1) ^ (deg - 1))).
    - cbn [pow]. ring.
    - rewrite sign_sq. ring. }
  assert (Sw : forall i, (i < deg)%nat -> sym_assign 1 P deg w0 i = w0 i).
  { apply sym_assign_id. intros i Hi. rewrite W0 by exact Hi. ring. }
  rewrite !Sx, !Sw by lia. split.
  - rewrite !X by lia. apply X'. exact Hk.
  - now rewrite W0.
Qed.

Lemma gauss_asym : exists eig, (forall i, (i < 3)%nat -> Derive (L 3) (eig i) <> 0) /\
  forall P, P = 1%nat \/ P = 2%nat -> exists x w, leggauss P 3 eig = Ok (x, w) /\ x 2%nat <> - x 0%nat.
Proof.
  exists (fun i => match i with 0%nat => -1 | 1%nat => 0 | _ => 1/2 end).
  assert (D3 : forall y, D 3 y = (15 * y * y - 3) / 2) by (intros y; rewrite D_step, D1, LSS', L1, L0; cbn [Nat.mul Nat.add INR]; field).
  assert (L3 : forall y, L 3 y = (5 * y * y * y - 3 * y) / 2) by (intros y; rewrite LSS', LSS', L1, L0; cbn [Nat.mul Nat.add INR]; field).
  split.
  - intros i Hi. rewrite (is_derive_unique _ _ _ (derive_L' 3 _)), D3. destruct i as [|[|[|i]]]; [lra|lra|lra|lia].
  - intros P HP.
    destruct (leggauss_ok P 3 (fun i => match i with 0%nat => -1 | 1%nat => 0 | _ => 1/2 end) ltac:(lia)) as [fm [df [x0 [X [_ [_ E]]]]]]. cbv zeta in E.
    eexists. eexists. split; [exact E|].
    assert (A0 : x0 0%nat = -5/6) by (rewrite X by lia; unfold newton; rewrite L3, D3; field).
    assert (A1 : x0 1%nat = 0) by (rewrite X by lia; unfold newton; rewrite L3, D3; field).
    assert (A2 : x0 2%nat = 5/3) by (rewrite X by lia; unfold newton; rewrite L3, D3; field).
    destruct HP as [-> | ->]; unfold sym_assign; cbn; unfold sym_packet; cbn; rewrite A0, A2; lra.
Qed.
