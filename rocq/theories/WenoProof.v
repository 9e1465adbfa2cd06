(** Memory behaviour of the WENO sweeps: which slots are written, and with the coefficients of which block. *)
From Coq Require Import Reals List Lia ZArith.
From Verif Require Import Base Options Sum PolyModel WenoModel Paint.
Import List ListNotations.
Open Scope nat_scope.

(** rows i .. i+n-1 of u, as the reader of a block sees them *)
Definition blk (u : nat -> num) (n i k : nat) : num := nth k (map (fun k => u (i + k)) (seq 0 n)) None.

Lemma gather_ok (rdu : nat -> res num) (u : nat -> num) n : forall i,
  (forall k, k < n -> rdu (i + k) = Ok (u (i + k))) -> gather rdu n i = Ok (map (fun k => u (i + k)) (seq 0 n)).
Proof.
  induction n as [|n IH]; intros i H; cbn [gather seq map]; [reflexivity|].
  pose proof (H 0 ltac:(lia)) as H0. rewrite Nat.add_0_r in *. rewrite H0. cbn [bind].
  rewrite (IH (S i)); [cbn [bind]|intros k Hk; replace (S i + k) with (i + S k) by lia; apply H; lia].
  f_equal. f_equal. rewrite <- seq_shift, map_map. apply map_ext. intros k. f_equal. lia.
Qed.

Lemma nth_map_seq {A} (f : nat -> A) n k d : k < n -> nth k (map f (seq 0 n)) d = f k.
Proof. intros H. rewrite (nth_indep _ d (f 0)) by (rewrite map_length, seq_length; exact H).
  rewrite (map_nth f). rewrite seq_nth by exact H. reflexivity. Qed.

Lemma blk_in u n i k : k < n -> blk u n i k = u (i + k).
Proof. intros H. unfold blk. now rewrite nth_map_seq. Qed.

Lemma blk_ext u u' n i : (forall k, k < n -> u (i + k) = u' (i + k)) -> blk u n i = blk u' n i.
Proof.
  intros H. unfold blk. replace (map (fun k => u (i + k)) (seq 0 n)) with (map (fun k => u' (i + k)) (seq 0 n)); [reflexivity|].
  apply map_ext_in. intros k Hk. apply in_seq in Hk. symmetry. apply H. lia.
Qed.

Lemma divmod n i s : s < n -> (i * n + s) / n = i /\ (i * n + s) mod n = s.
Proof.
  intros H. rewrite (Nat.add_comm (i * n)). split.
  - rewrite Nat.div_add by lia. rewrite Nat.div_small by lia. lia.
  - rewrite Nat.mod_add by lia. apply Nat.mod_small. exact H.
Qed.

Lemma pack_lt i s n m : i < n -> s < m -> i * m + s < n * m.
Proof. intros Hi Hs. assert (i * m + m <= n * m) by (replace (i * m + m) with (S i * m) by (cbn; lia); apply Nat.mul_le_mono_r; lia). lia. Qed.

Lemma flat_in (own : nat -> list nat) n a : In a (flat_map own (seq 0 n)) <-> exists i, i < n /\ In a (own i).
Proof. rewrite in_flat_map. split; intros [i [H K]]; exists i; [apply in_seq in H; split; [lia|exact K]|split; [apply in_seq; lia|exact K]]. Qed.

Section P.
Variables (N : nat) (SIG : nat -> nat -> R) (LAMS LAMC EPS : R) (inv : stencil -> (nat -> R) -> nat -> R).
Hypothesis N1 : 1 <= N.
Notation coeffs := (coeffs N SIG LAMS LAMC EPS inv).
Notation weno1 := (weno1 N SIG LAMS LAMC EPS inv).
Notation weno2 := (weno2 N SIG LAMS LAMC EPS inv).

Lemma FN_CN : FN2 N + CN2 N = N - 1.
Proof. unfold FN2, CN2. pose proof (Nat.div_mod N 2 ltac:(lia)). pose proof (Nat.mod_upper_bound N 2 ltac:(lia)).
  pose proof (Nat.div_mod (N - 1) 2 ltac:(lia)). pose proof (Nat.mod_upper_bound (N - 1) 2 ltac:(lia)). lia. Qed.

Lemma off_le s : off N s <= N - 1.
Proof. pose proof FN_CN. destruct s; cbn [off]; lia. Qed.

(** value of slot i*N + s after a sweep over the rows u *)
Definition sweep (u : nat -> num) (nx gap i s : nat) : num :=
  coeffs (blk u (2 * N - 1) i) (Z.of_nat nx) (Z.of_nat gap) (Z.of_nat i) s.

Lemma weno1_paints rdu u nx gap Lw : nx * N <= Lw ->
  (forall r, r < nx + 2 * (N - 1) -> rdu r = Ok (u r)) ->
  paints Lw (seq 0 (nx * N)) (fun a => sweep u nx gap (a / N) (a mod N)) (fun wh => weno1 rdu nx gap wh).
Proof.
  intros HL Hu. unfold WenoModel.weno1.
  apply (paints_ext _ (flat_map (fun i => flat_map (fun s => [i * N + s]) (seq 0 N)) (seq 0 nx)) _ _
     (fun wh => for_loop nx 0 (fun i wh => l <- gather rdu (2 * N - 1) i ;;
        for_loop N 0 (fun s wh => wr wh (i * N + s) (coeffs (fun k => nth k l None) (Z.of_nat nx) (Z.of_nat gap) (Z.of_nat i) s)) wh) wh)).
  - apply (paints_for Lw (fun i => flat_map (fun s => [i * N + s]) (seq 0 N))). intros i Hi.
    eapply paints_bind.
    + apply (gather_ok rdu u). intros k Hk. apply Hu. lia.
    + cbn beta. apply (paints_for Lw (fun s => [i * N + s])). intros s Hs. apply paints_wr.
      * pose proof (pack_lt i s nx N ltac:(lia) ltac:(lia)). lia.
      * destruct (divmod N i s ltac:(lia)) as [-> ->]. reflexivity.
  - reflexivity.
  - intros a. rewrite flat_in, in_seq. split.
    + intros [i [Hi Ha]]. apply flat_in in Ha. destruct Ha as [s [Hs [<-|[]]]]. pose proof (pack_lt i s nx N ltac:(lia) ltac:(lia)). lia.
    + intros H. pose proof (Nat.div_mod a N ltac:(lia)). pose proof (Nat.mod_upper_bound a N ltac:(lia)).
      exists (a / N). split; [apply Nat.div_lt_upper_bound; lia|]. apply flat_in. exists (a mod N). split; [lia|]. left. lia.
Qed.

Lemma weno1_ok rdu u nx gap wh : nx * N <= blen wh ->
  (forall r, r < nx + 2 * (N - 1) -> rdu r = Ok (u r)) ->
  exists wh', weno1 rdu nx gap wh = Ok wh' /\ blen wh' = blen wh /\
    (forall i s, i < nx -> s < N -> bdat wh' (i * N + s) = Some (sweep u nx gap i s)) /\
    (forall a, nx * N <= a -> bdat wh' a = bdat wh a).
Proof.
  intros HL Hu. destruct (weno1_paints rdu u nx gap (blen wh) HL Hu wh eq_refl) as [wh' [E [L [W K]]]].
  exists wh'. split; [exact E|]. split; [exact L|]. split.
  - intros i s Hi Hs. rewrite W by (apply in_seq; pose proof (pack_lt i s nx N ltac:(lia) ltac:(lia)); lia).
    destruct (divmod N i s Hs) as [-> ->]. reflexivity.
  - intros a Ha. apply K. rewrite in_seq. lia.
Qed.

Definition gapx (nocorners : bool) (ny j : nat) : nat :=
  if (nocorners && (Nat.ltb j N || negb (Z.of_nat j <? Z.of_nat (ny + 2 * (N - 1)) - Z.of_nat N)%Z))%bool then N else 0.
Definition gapy (nocorners : bool) (nx i : nat) : nat :=
  if (nocorners && (Nat.eqb i 0 || Nat.eqb i (nx - 1)))%bool then 1 else 0.

(** value after the first sweep, of column j, and after both *)
Definition ux_val nc (u : nat -> num) nx ny (i j ii : nat) : num :=
  sweep (fun r => u (j + (ny + 2 * (N - 1)) * r)) nx (gapx nc ny j) i ii.
Definition wh_val nc (u : nat -> num) nx ny (i j ii jj : nat) : num :=
  sweep (fun r => ux_val nc u nx ny i r ii) ny (gapy nc nx i) j jj.

Lemma copy_paints {A} (src : buf A) Lx n m (addr : nat -> nat -> nat) (val : nat -> A) :
  (forall i s, i < n -> s < m -> addr i s < Lx /\ rd src (i * m + s) = Ok (val (addr i s))) ->
  paints Lx (flat_map (fun i => flat_map (fun s => [addr i s]) (seq 0 m)) (seq 0 n)) val
    (fun b => for_loop n 0 (fun i b => for_loop m 0 (fun s b => x <- rd src (i * m + s) ;; wr b (addr i s) x) b) b).
Proof.
  intros H. apply (paints_for Lx (fun i => flat_map (fun s => [addr i s]) (seq 0 m))). intros i Hi.
  apply (paints_for Lx (fun s => [addr i s])). intros s Hs.
  destruct (H i s ltac:(lia) ltac:(lia)) as [Ha Hr]. eapply paints_bind; [exact Hr|]. cbn beta. apply paints_wr; [exact Ha|reflexivity].
Qed.

Lemma weno2_ok nc wh ub u nx ny :
  (nx * ny * N) * N <= blen wh ->
  (nx + 2 * (N - 1)) * (ny + 2 * (N - 1)) <= blen ub ->
  (forall a, a < (nx + 2 * (N - 1)) * (ny + 2 * (N - 1)) -> bdat ub a = Some (u a)) ->
  exists wh', weno2 nc wh ub nx ny = Ok wh' /\ blen wh' = blen wh /\
    (forall i j ii jj, i < nx -> j < ny -> ii < N -> jj < N ->
       bdat wh' (((i * ny + j) * N + ii) * N + jj) = Some (wh_val nc u nx ny i j ii jj)) /\
    (forall a, (nx * ny * N) * N <= a -> bdat wh' a = bdat wh a).
Proof.
  intros HL HU U. unfold WenoModel.weno2. set (W := ny + 2 * (N - 1)) in *.
  (* first sweep *)
  match goal with |- context [for_loop W 0 ?F ?S0] =>
    destruct (for_loop_inv (fun j (p : buf num * buf num) => blen (fst p) = nx * W * N /\ blen (snd p) = nx * N /\
      forall i j' s, i < nx -> j' < j -> s < N -> bdat (fst p) ((i * W + j') * N + s) = Some (ux_val nc u nx ny i j' s)) W 0 F S0)
      as [[ux t0] [E1 [L1 [_ V1]]]] end.
  - cbn. split; [reflexivity|]. split; [reflexivity|]. lia.
  - intros j [ux t0] Hj [Lx [Lt Hx]]. cbn [fst snd] in *.
    change (if (nc && (Nat.ltb j N || negb (Z.of_nat j <? Z.of_nat W - Z.of_nat N)%Z))%bool then N else 0) with (gapx nc ny j).
    destruct (weno1_ok (vrow ub j W (nx + 2 * (N - 1))) (fun r => u (j + W * r)) nx (gapx nc ny j) t0) as [t1 [Et [Lt1 [Vt _]]]].
    + lia.
    + intros r Hr. unfold vrow. rewrite (proj2 (Nat.ltb_lt _ _) Hr). apply rd_ok; [|apply U];
        pose proof (pack_lt r j (nx + 2 * (N - 1)) W ltac:(lia) ltac:(lia)); rewrite (Nat.mul_comm W r); lia.
    + rewrite Et. cbn [bind].
      destruct (copy_paints t1 (blen ux) nx N (fun i s => j * N + i * (W * N) + s) (fun a => ux_val nc u nx ny (a / N / W) ((a / N) mod W) (a mod N))) with (b := ux)
        as [ux' [Eu [Lu [Wu Ku]]]].
      * intros i s Hi Hs. split.
        { rewrite Lx. replace (j * N + i * (W * N) + s) with ((i * W + j) * N + s) by ring. apply pack_lt; [apply pack_lt; lia|exact Hs]. }
        replace (j * N + i * (W * N) + s) with ((i * W + j) * N + s) by ring.
        destruct (divmod N (i * W + j) s Hs) as [-> ->]. destruct (divmod W i j ltac:(lia)) as [-> ->].
        apply rd_ok; [rewrite Lt1, Lt; apply pack_lt; assumption|]. apply Vt; assumption.
      * reflexivity.
      * rewrite Eu. cbn [bind]. eexists. split; [reflexivity|]. cbn [fst snd]. split; [congruence|]. split; [congruence|].
        intros i j' s Hi Hj' Hs. destruct (Nat.eq_dec j' j) as [->|Ne].
        { rewrite Wu.
          - destruct (divmod N (i * W + j) s Hs) as [-> ->]. destruct (divmod W i j ltac:(lia)) as [-> ->]. reflexivity.
          - apply flat_in. exists i. split; [exact Hi|]. apply flat_in. exists s. split; [exact Hs|]. left. ring. }
        rewrite Ku; [apply Hx; auto; lia|].
        intros C. apply flat_in in C. destruct C as [i2 [Hi2 C]]. apply flat_in in C. destruct C as [s2 [Hs2 [C|[]]]].
        replace (j * N + i2 * (W * N) + s2) with ((i2 * W + j) * N + s2) in C by ring.
        assert (D := f_equal (fun x => x / N mod W) C). cbn beta in D.
        destruct (divmod N (i * W + j') s Hs) as [D1 _]. destruct (divmod N (i2 * W + j) s2 Hs2) as [D2 _]. rewrite D1, D2 in D.
        destruct (divmod W i j' ltac:(lia)) as [_ D3]. destruct (divmod W i2 j ltac:(lia)) as [_ D4]. congruence.
  - rewrite E1. cbn [bind]. cbn [fst snd] in *. rewrite Nat.add_0_l in V1.
    (* second sweep *)
    match goal with |- context [for_loop nx 0 ?F ?S0] =>
      destruct (for_loop_inv (fun i0 (p : buf num * buf num) => blen (fst p) = blen wh /\ blen (snd p) = ny * N /\
        (forall i j ii jj, i < i0 -> j < ny -> ii < N -> jj < N ->
          bdat (fst p) (((i * ny + j) * N + ii) * N + jj) = Some (wh_val nc u nx ny i j ii jj)) /\
        (forall a, nx * ny * N * N <= a -> bdat (fst p) a = bdat wh a)) nx 0 F S0)
        as [[wh' t1] [E2 [L2 [_ [V2 K2]]]]] end.
    + cbn. split; [reflexivity|]. split; [reflexivity|]. split; [lia|auto].
    + intros i p Hi [Lp [Lq [Hp Kp]]].
      match goal with |- context [for_loop N 0 ?F ?S0] =>
        destruct (for_loop_inv (fun i1 (p : buf num * buf num) => blen (fst p) = blen wh /\ blen (snd p) = ny * N /\
          (forall i' j ii jj, (i' < i \/ (i' = i /\ ii < i1)) -> j < ny -> ii < N -> jj < N ->
            bdat (fst p) (((i' * ny + j) * N + ii) * N + jj) = Some (wh_val nc u nx ny i' j ii jj)) /\
          (forall a, nx * ny * N * N <= a -> bdat (fst p) a = bdat wh a)) N 0 F S0)
          as [p' [E3 [L3 [M3 [V3 K3]]]]] end.
      * split; [exact Lp|]. split; [exact Lq|]. split; [|exact Kp].
        intros i' j ii jj [H|[_ H]]; [|lia]. apply Hp. exact H.
      * clear p Lp Lq Hp Kp. intros ii [w t] Hii [Lw [Lt [Hw Kw]]]. cbn [fst snd] in *.
        change (if (nc && ((i =? 0) || (i =? nx - 1)))%bool then 1 else 0) with (gapy nc nx i).
        destruct (weno1_ok (vrow ux (i * W * N + ii) N W) (fun r => ux_val nc u nx ny i r ii) ny (gapy nc nx i) t) as [t2 [Et [Lt2 [Vt _]]]].
        { lia. }
        { intros r Hr. unfold vrow. fold W in Hr. rewrite (proj2 (Nat.ltb_lt _ _) Hr).
          replace (i * W * N + ii + N * r) with ((i * W + r) * N + ii) by ring.
          apply rd_ok; [|apply V1; lia]. rewrite L1. apply pack_lt; [apply pack_lt; lia|lia]. }
        rewrite Et. cbn [bind].
        destruct (copy_paints t2 (blen w) ny N (fun j s => (i * ny * N + ii) * N + j * (N * N) + s)
                   (fun a => wh_val nc u nx ny (a / N / N / ny) ((a / N / N) mod ny) ((a / N) mod N) (a mod N))) with (b := w)
          as [w' [Eu [Lu [Wu Ku]]]].
        { intros j s Hj Hs. split.
          - rewrite Lw. replace ((i * ny * N + ii) * N + j * (N * N) + s) with (((i * ny + j) * N + ii) * N + s) by ring.
            eapply Nat.lt_le_trans; [|exact HL]. apply pack_lt; [apply pack_lt; [apply pack_lt|]|]; lia.
          - replace ((i * ny * N + ii) * N + j * (N * N) + s) with (((i * ny + j) * N + ii) * N + s) by ring.
            destruct (divmod N ((i * ny + j) * N + ii) s Hs) as [-> ->]. destruct (divmod N (i * ny + j) ii ltac:(lia)) as [-> ->].
            destruct (divmod ny i j Hj) as [-> ->]. apply rd_ok; [rewrite Lt2, Lt; apply pack_lt; assumption|]. apply Vt; assumption. }
        { reflexivity. }
        rewrite Eu. cbn [bind]. eexists. split; [reflexivity|]. cbn [fst snd]. split; [congruence|]. split; [congruence|]. split.
        { intros i' j ii' jj H Hj Hi' Hs.
          assert (A : forall j2 s2, j2 < ny -> s2 < N -> (i * ny * N + ii) * N + j2 * (N * N) + s2 = ((i * ny + j2) * N + ii) * N + s2) by (intros; ring).
          destruct (Nat.eq_dec i' i) as [->|Ni]; [destruct (Nat.eq_dec ii' ii) as [->|Nii]|].
          - rewrite Wu.
            + destruct (divmod N ((i * ny + j) * N + ii) jj Hs) as [-> ->]. destruct (divmod N (i * ny + j) ii ltac:(lia)) as [-> ->].
              destruct (divmod ny i j Hj) as [-> ->]. reflexivity.
            + apply flat_in. exists j. split; [exact Hj|]. apply flat_in. exists jj. split; [exact Hs|]. left. apply A; assumption.
          - rewrite Ku; [apply Hw; auto; lia|].
            intros C. apply flat_in in C. destruct C as [j2 [Hj2 C]]. apply flat_in in C. destruct C as [s2 [Hs2 [C|[]]]].
            rewrite A in C by assumption. assert (D := f_equal (fun x => x / N mod N) C). cbn beta in D.
            destruct (divmod N ((i * ny + j) * N + ii') jj Hs) as [D1 _]. destruct (divmod N ((i * ny + j2) * N + ii) s2 Hs2) as [D2 _]. rewrite D1, D2 in D.
            destruct (divmod N (i * ny + j) ii' Hi') as [_ D3]. destruct (divmod N (i * ny + j2) ii ltac:(lia)) as [_ D4]. congruence.
          - rewrite Ku; [apply Hw; auto; lia|].
            intros C. apply flat_in in C. destruct C as [j2 [Hj2 C]]. apply flat_in in C. destruct C as [s2 [Hs2 [C|[]]]].
            rewrite A in C by assumption. assert (D := f_equal (fun x => x / N / N / ny) C). cbn beta in D.
            destruct (divmod N ((i' * ny + j) * N + ii') jj Hs) as [D1 _]. destruct (divmod N ((i * ny + j2) * N + ii) s2 Hs2) as [D2 _]. rewrite D1, D2 in D.
            destruct (divmod N (i' * ny + j) ii' Hi') as [D3 _]. destruct (divmod N (i * ny + j2) ii ltac:(lia)) as [D4 _]. rewrite D3, D4 in D.
            destruct (divmod ny i' j Hj) as [D5 _]. destruct (divmod ny i j2 Hj2) as [D6 _]. congruence. }
        { intros a Ha. rewrite Ku; [apply Kw; exact Ha|].
          intros C. apply flat_in in C. destruct C as [j2 [Hj2 C]]. apply flat_in in C. destruct C as [s2 [Hs2 [C|[]]]].
          replace ((i * ny * N + ii) * N + j2 * (N * N) + s2) with (((i * ny + j2) * N + ii) * N + s2) in C by ring.
          assert (((i * ny + j2) * N + ii) * N + s2 < nx * ny * N * N) by (apply pack_lt; [apply pack_lt; [apply pack_lt|]|]; lia). lia. }
      * exists p'. split; [exact E3|]. split; [exact L3|]. split; [exact M3|]. split; [|exact K3].
        intros i' j ii jj H Hj Hi' Hs. apply V3; lia.
    + cbn [fst snd] in *. rewrite E2. cbn [bind]. exists wh'. split; [reflexivity|]. split; [exact L2|]. split; [|exact K2].
      rewrite Nat.add_0_l in V2. exact V2.
Qed.
End P.
