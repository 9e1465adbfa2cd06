(** A thread's arrays are windows of the serial ones: what it computes is what the serial stepper computes there. *)
From Coq Require Import Reals List Lia ZArith.
From Verif Require Import Base Options Sum WenoModel WenoProof FvModel FvProof GridModel StepperModel.
Import List ListNotations.
Open Scope nat_scope.

Definition window {A} (b b' : buf A) (o : nat) : Prop :=
  o + blen b' <= blen b /\ forall a, a < blen b' -> bdat b' a = bdat b (o + a).

Lemma rd_window {A} (b b' : buf A) o a : window b b' o -> a < blen b' -> rd b' a = rd b (o + a).
Proof. intros [L W] H. unfold rd. rewrite W by exact H. rewrite (proj2 (Nat.ltb_lt _ _) H), (proj2 (Nat.ltb_lt (o + a) (blen b))) by lia. reflexivity. Qed.

Lemma segment_ok {A} (b : buf A) o len : o + len <= blen b -> exists b', segment b o len = Ok b' /\ blen b' = len /\ window b b' o.
Proof.
  intros H. unfold segment. rewrite (proj2 (Nat.leb_le _ _) H). eexists. split; [reflexivity|]. split; [reflexivity|].
  split; cbn [blen bdat]; [exact H|reflexivity].
Qed.

Lemma ext_cons nx rest k : extended_dimensions (nx :: rest) k = (nx + 2 * k) * extended_dimensions rest k.
Proof. reflexivity. Qed.

(** ** slabs *)
Lemma slab0 nx n : slab_start nx n 0 = 0.
Proof. unfold slab_start. destruct n; reflexivity. Qed.
Lemma slab_n nx n : 0 < n -> slab_start nx n n = nx.
Proof. intros H. unfold slab_start. rewrite Nat.mul_comm. apply Nat.div_mul. lia. Qed.
Lemma slab_le nx n t s : t <= s -> slab_start nx n t <= slab_start nx n s.
Proof. intros H. unfold slab_start. destruct n as [|n]; [cbn; lia|]. apply Nat.div_le_mono; [lia|]. apply Nat.mul_le_mono_r, H. Qed.
Lemma slab_bound nx n t : 0 < n -> t <= n -> slab_start nx n t <= nx.
Proof. intros H H1. rewrite <- (slab_n nx n H) at 2. apply slab_le, H1. Qed.
Lemma slab_find nx n r : 0 < n -> r < nx -> exists t, t < n /\ slab_start nx n t <= r < slab_start nx n (t + 1).
Proof.
  intros Hn Hr.
  assert (H : forall k, k <= n -> r < slab_start nx n k -> exists t, t < k /\ slab_start nx n t <= r < slab_start nx n (t + 1)).
  { induction k as [|k IH]; intros Hk H; [rewrite slab0 in H; lia|].
    destruct (Nat.lt_ge_cases r (slab_start nx n k)) as [C|C].
    - destruct (IH ltac:(lia) C) as [t [Ht R]]. exists t. split; [lia|exact R].
    - exists k. split; [lia|]. rewrite Nat.add_1_r. lia. }
  apply H; [lia|]. rewrite slab_n; assumption.
Qed.
Lemma slab_unique nx n r t s : slab_start nx n t <= r < slab_start nx n (t + 1) -> slab_start nx n s <= r < slab_start nx n (s + 1) -> t = s.
Proof.
  intros [A B] [C D]. destruct (Nat.lt_trichotomy t s) as [H|[H|H]]; [|exact H|].
  - pose proof (slab_le nx n (t + 1) s ltac:(lia)). lia.
  - pose proof (slab_le nx n (s + 1) t ltac:(lia)). lia.
Qed.

Section P.
Variables (N : nat) (SIG : nat -> nat -> R) (LAMS LAMC EPS : R) (inv : stencil -> (nat -> R) -> nat -> R).
Hypothesis N1 : 1 <= N.
Variable prim : option ((num -> num) * (num -> num)).
Notation sweep := (sweep N SIG LAMS LAMC EPS inv).
Notation wh_val := (wh_val N SIG LAMS LAMC EPS inv).
Notation ux_val := (ux_val N SIG LAMS LAMC EPS inv).
Notation weno := (weno_launcher N SIG LAMS LAMC EPS inv prim).

(** ** reconstruction *)
Definition pre (x : num) : num := match prim with Some (p, _) => p x | None => x end.
Definition post (x : num) : num := match prim with Some (_, c) => c x | None => x end.

Lemma selected0 nx i : (0 <= i < nx)%Z -> selected N nx 0 i =
  [sL; sR] ++ (if Nat.ltb 2 N then sCL :: (if Nat.even N then [sCR] else []) else []).
Proof.
  intros H. unfold selected. rewrite (proj2 (Z.leb_le 0 i)), (proj2 (Z.leb_le i (nx - 0 - 1))), (proj2 (Z.leb_le 0 (i + Z.of_nat (FN2 N)))) by lia.
  rewrite (proj2 (Z.leb_le (i - Z.of_nat (FN2 N)) (nx - 0 - 1))) by lia. rewrite Bool.andb_true_r. reflexivity.
Qed.

Lemma sweep_window u u' nx nx' o i s : i < nx' -> o + i < nx -> (forall r, r < 2 * N - 1 -> u' (i + r) = u (o + i + r)) ->
  sweep u' nx' 0 i s = sweep u nx 0 (o + i) s.
Proof.
  intros Hi Ho Hu. unfold WenoProof.sweep, coeffs. rewrite !selected0 by lia.
  replace (blk u' (2 * N - 1) i) with (blk u (2 * N - 1) (o + i)); [reflexivity|].
  unfold blk. f_equal. replace (map (fun k => u (o + i + k)) (seq 0 (2 * N - 1))) with (map (fun k => u' (i + k)) (seq 0 (2 * N - 1))); [reflexivity|].
  apply map_ext_in. intros k Hk. apply in_seq in Hk. apply Hu. lia.
Qed.

Definition whole {A} (b : buf A) (u : nat -> A) : Prop := forall a, a < blen b -> bdat b a = Some (u a).

Lemma bmap_whole p b u : whole b u -> whole (bmap p b) (fun a => p (u a)).
Proof. intros H a Ha. cbn [bmap blen bdat] in *. rewrite H by exact Ha. reflexivity. Qed.

Lemma pre_whole ub u : whole ub u -> whole (match prim with Some (p, _) => bmap p ub | None => ub end) (fun a => pre (u a)).
Proof. intros H. unfold pre. destruct prim as [[p c]|]; [apply bmap_whole|]; exact H. Qed.
Lemma pre_len ub : blen (match prim with Some (p, _) => bmap p ub | None => ub end) = blen ub.
Proof. destruct prim as [[p c]|]; reflexivity. Qed.

Lemma weno1d nc ub u nx : blen ub = nx + 2 * N -> whole ub u ->
  exists wh, weno nc (balloc ((nx + 2) * N)) ub [nx] = Ok wh /\ blen wh = (nx + 2) * N /\
    forall i s, i < nx + 2 -> s < N -> bdat wh (i * N + s) = Some (post (sweep (fun a => pre (u a)) (nx + 2) 0 i s)).
Proof.
  intros L U. unfold weno_launcher. pose proof (pre_whole ub u U) as W. pose proof (pre_len ub) as PL.
  set (ub_ := match prim with Some (p, _) => bmap p ub | None => ub end) in *.
  destruct (weno1_ok N SIG LAMS LAMC EPS inv N1 (vrow ub_ 0 1 (blen ub_)) (fun a => pre (u a)) (nx + 2) 0 (balloc ((nx + 2) * N))) as [wh [E [Lw [Hw _]]]].
  - cbn [balloc blen]. lia.
  - intros r Hr. unfold vrow. rewrite (proj2 (Nat.ltb_lt _ _)) by lia. rewrite Nat.mul_1_l. apply rd_ok; [|apply W]; lia.
  - rewrite E. cbn [bind]. cbn [balloc blen] in Lw. eexists. split; [reflexivity|]. split; [|].
    + destruct prim as [[p c]|]; exact Lw.
    + intros i s Hi Hs. specialize (Hw i s Hi Hs). unfold post. destruct prim as [[p c]|]; [|exact Hw]. cbn [bmap bdat]. now rewrite Hw.
Qed.

Lemma weno2d nc ub u nx ny : blen ub = (nx + 2 * N) * (ny + 2 * N) -> whole ub u ->
  exists wh, weno nc (balloc ((nx + 2) * (ny + 2) * N * N)) ub [nx; ny] = Ok wh /\ blen wh = (nx + 2) * (ny + 2) * N * N /\
    forall i j ii jj, i < nx + 2 -> j < ny + 2 -> ii < N -> jj < N ->
      bdat wh (((i * (ny + 2) + j) * N + ii) * N + jj) = Some (post (wh_val nc (fun a => pre (u a)) (nx + 2) (ny + 2) i j ii jj)).
Proof.
  intros L U. unfold weno_launcher. pose proof (pre_whole ub u U) as W. pose proof (pre_len ub) as PL.
  set (ub_ := match prim with Some (p, _) => bmap p ub | None => ub end) in *.
  assert (EL : (nx + 2 + 2 * (N - 1)) * (ny + 2 + 2 * (N - 1)) = blen ub_) by (rewrite PL, L; f_equal; lia).
  destruct (weno2_ok N SIG LAMS LAMC EPS inv N1 nc (balloc ((nx + 2) * (ny + 2) * N * N)) ub_ (fun a => pre (u a)) (nx + 2) (ny + 2)) as [wh [E [Lw [Hw _]]]].
  - cbn [balloc blen]. lia.
  - lia.
  - intros a Ha. apply W. lia.
  - rewrite E. cbn [bind]. cbn [balloc blen] in Lw. eexists. split; [reflexivity|]. split; [|].
    + destruct prim as [[p c]|]; exact Lw.
    + intros i j ii jj Hi Hj Hii Hjj. specialize (Hw i j ii jj Hi Hj Hii Hjj). unfold post. destruct prim as [[p c]|]; [|exact Hw]. cbn [bmap bdat]. now rewrite Hw.
Qed.

Lemma wh_val_window u u' nx nx' ny o i j ii jj : i < nx' -> o + i < nx -> j < ny ->
  (forall a, a < (nx' + 2 * (N - 1)) * (ny + 2 * (N - 1)) -> u' a = u (o * (ny + 2 * (N - 1)) + a)) ->
  wh_val false u' nx' ny i j ii jj = wh_val false u nx ny (o + i) j ii jj.
Proof.
  intros Hi Ho Hj Hu. unfold WenoProof.wh_val. change (gapy false nx' i) with 0. change (gapy false nx (o + i)) with 0.
  rewrite (sweep_window (fun r => ux_val false u nx ny (o + i) r ii) (fun r => ux_val false u' nx' ny i r ii) ny ny 0 j jj);
    [reflexivity|exact Hj|exact Hj|].
  intros r Hr. cbn beta. rewrite Nat.add_0_l. unfold WenoProof.ux_val. change (gapx N false ny (j + r)) with 0.
  apply sweep_window; [exact Hi|exact Ho|]. intros q Hq. set (W := ny + 2 * (N - 1)) in *.
  rewrite Hu; [f_equal; ring|]. pose proof (pack_lt (i + q) (j + r) (nx' + 2 * (N - 1)) W ltac:(lia) ltac:(lia)). rewrite (Nat.mul_comm W). lia.
Qed.

Lemma cell4 n m k a : a < n * m * k * k -> exists i j ii jj, i < n /\ j < m /\ ii < k /\ jj < k /\ a = ((i * m + j) * k + ii) * k + jj.
Proof.
  intros H. assert (K : k <> 0) by (intros ->; lia). assert (M : m <> 0) by (intros ->; lia).
  exists (a / k / k / m), (a / k / k mod m), (a / k mod k), (a mod k).
  split; [apply Nat.div_lt_upper_bound; [lia|]; apply Nat.div_lt_upper_bound; [lia|]; apply Nat.div_lt_upper_bound; [lia|]; lia|].
  split; [apply Nat.mod_upper_bound; lia|]. split; [apply Nat.mod_upper_bound; lia|]. split; [apply Nat.mod_upper_bound; lia|].
  pose proof (Nat.div_mod a k K) as E1. pose proof (Nat.div_mod (a / k) k K) as E2. pose proof (Nat.div_mod (a / k / k) m M) as E3.
  replace (a / k / k / m * m + a / k / k mod m) with (a / k / k) by lia. replace (a / k / k * k + a / k mod k) with (a / k) by lia. lia.
Qed.

(** the grids the steppers know: one row of cells, or a rectangle *)
Definition dims (rest : list nat) : Prop := rest = [] \/ exists ny, rest = [ny].
Notation ext := extended_dimensions.
Notation Rr rest := (N ^ S (length rest)).

Lemma weno_window nc ub ub' u o nx nx' rest : dims rest -> (rest <> [] -> nc = false) -> o + nx' <= nx ->
  blen ub = ext (nx :: rest) N -> blen ub' = ext (nx' :: rest) N -> whole ub u -> window ub ub' (o * ext rest N) ->
  exists wh wh', weno nc (balloc (ext (nx :: rest) 1 * Rr rest)) ub (nx :: rest) = Ok wh /\
    weno nc (balloc (ext (nx' :: rest) 1 * Rr rest)) ub' (nx' :: rest) = Ok wh' /\
    blen wh = ext (nx :: rest) 1 * Rr rest /\ blen wh' = ext (nx' :: rest) 1 * Rr rest /\
    window wh wh' (o * ext rest 1 * Rr rest) /\ forall a, a < blen wh -> bdat wh a <> None.
Proof.
  intros Hd Hnc Ho L L' U [WL W].
  assert (U' : whole ub' (fun a => u (o * ext rest N + a))) by (intros a Ha; rewrite W by exact Ha; apply U; lia).
  destruct Hd as [->|[ny ->]].
  - cbn [ext map fold_right length Nat.pow] in *. rewrite !Nat.mul_1_r in *.
    destruct (weno1d nc ub u nx L U) as [wh [E [Lw V]]]. destruct (weno1d nc ub' _ nx' L' U') as [wh' [E' [Lw' V']]].
    exists wh, wh'. split; [exact E|]. split; [exact E'|]. split; [exact Lw|]. split; [exact Lw'|]. split; [split|].
    + rewrite Lw, Lw'. rewrite <- Nat.mul_add_distr_r. apply Nat.mul_le_mono_r. lia.
    + intros a Ha. rewrite Lw' in Ha. pose proof (Nat.div_mod a N ltac:(lia)) as Da. pose proof (Nat.mod_upper_bound a N ltac:(lia)) as Ma.
      assert (Hq : a / N < nx' + 2) by (apply Nat.div_lt_upper_bound; lia).
      rewrite (Nat.mul_comm N) in Da. rewrite Da at 1. rewrite V' by assumption. replace (o * N + a) with ((o + a / N) * N + a mod N) by (rewrite Nat.mul_add_distr_r; lia).
      rewrite V by lia. f_equal. f_equal. apply sweep_window; [lia|lia|]. intros r Hr. cbn beta. f_equal. f_equal. lia.
    + intros a Ha. rewrite Lw in Ha. pose proof (Nat.div_mod a N ltac:(lia)) as Da. pose proof (Nat.mod_upper_bound a N ltac:(lia)) as Ma.
      assert (Hq : a / N < nx + 2) by (apply Nat.div_lt_upper_bound; lia).
      rewrite (Nat.mul_comm N) in Da. rewrite Da, V by assumption. discriminate.
  - rewrite (Hnc ltac:(discriminate)) in *. cbn [ext map fold_right length Nat.pow] in *. rewrite !Nat.mul_1_r in *.
    destruct (weno2d false ub u nx ny L U) as [wh [E [Lw V]]]. destruct (weno2d false ub' _ nx' ny L' U') as [wh' [E' [Lw' V']]].
    replace ((nx + 2) * (ny + 2) * (N * N)) with ((nx + 2) * (ny + 2) * N * N) by ring.
    replace ((nx' + 2) * (ny + 2) * (N * N)) with ((nx' + 2) * (ny + 2) * N * N) by ring.
    exists wh, wh'. split; [exact E|]. split; [exact E'|]. split; [exact Lw|]. split; [exact Lw'|]. split; [split|].
    + rewrite Lw, Lw'. replace (o * (ny + 2) * (N * N)) with (o * (ny + 2) * N * N) by ring.
      rewrite <- !Nat.mul_add_distr_r. repeat apply Nat.mul_le_mono_r. lia.
    + intros a Ha. rewrite Lw' in Ha. destruct (cell4 _ _ _ _ Ha) as [i [j [ii [jj [Hi [Hj [Hii [Hjj ->]]]]]]]].
      rewrite V' by assumption.
      replace (o * (ny + 2) * (N * N) + (((i * (ny + 2) + j) * N + ii) * N + jj)) with ((((o + i) * (ny + 2) + j) * N + ii) * N + jj) by ring.
      rewrite V by lia. f_equal. f_equal. apply wh_val_window; [lia|lia|lia|]. intros a Ha'. cbn beta. f_equal. f_equal. f_equal. f_equal. lia.
    + intros a Ha. rewrite Lw in Ha. destruct (cell4 _ _ _ _ Ha) as [i [j [ii [jj [Hi [Hj [Hii [Hjj ->]]]]]]]].
      rewrite V by assumption. discriminate.
Qed.

(** ** predictor and half step *)
Section Cells.
Variable blk : Type.
Variable Phi : nat -> list num -> res (option (nat -> blk)).
Variable view : list num -> blk.
Variable mid : nat -> list num -> res blk.

Lemma gather_window (b b' : buf num) o : forall n i, window b b' o -> i + n <= blen b' -> gather (rd b') n i = gather (rd b) n (o + i).
Proof.
  induction n as [|n IH]; intros i W H; cbn [gather]; [reflexivity|]. rewrite (rd_window b b' o i W) by lia. destruct (rd b (o + i)); cbn [bind]; try reflexivity.
  rewrite (IH (S i) W) by lia. rewrite Nat.add_succ_r. reflexivity.
Qed.

Definition pcell (ndim R : nat) (wh : buf num) (mask : buf bool) (i : nat) : res (option (nat -> blk)) :=
  m <- rd mask i ;; if (m : bool) then rows <- gather (rd wh) R (i * R) ;; Phi ndim rows else Ok None.

Lemma pcell_window ndim R wh wh' mask mask' o i : window wh wh' (o * R) -> window mask mask' o -> blen wh' = blen mask' * R -> i < blen mask' ->
  pcell ndim R wh' mask' i = pcell ndim R wh mask (o + i).
Proof.
  intros Ww Wm L Hi. unfold pcell. rewrite (rd_window mask mask' o i Wm Hi). destruct (rd mask (o + i)) as [[]| | |]; cbn [bind]; try reflexivity.
  rewrite (gather_window wh wh' (o * R) R (i * R) Ww), <- Nat.mul_add_distr_r; [reflexivity|].
  rewrite L. replace (i * R + R) with (S i * R) by (cbn; lia). apply Nat.mul_le_mono_r. lia.
Qed.

Lemma predictor_step ndim R wh mask i qh : 
  (m <- rd mask i ;; if (m : bool) then rows <- gather (rd wh) R (i * R) ;; r <- Phi ndim rows ;;
      match r with Some f => for_loop N 0 (fun t qh => wr qh (i * N + t) (f t)) qh | None => Ok qh end else Ok qh) =
  (F <- pcell ndim R wh mask i ;; match F with Some f => for_loop N 0 (fun t qh => wr qh (i * N + t) (f t)) qh | None => Ok qh end).
Proof. unfold pcell. destruct (rd mask i) as [[]| | |]; cbn [bind]; try reflexivity. destruct (gather (rd wh) R (i * R)); reflexivity. Qed.

Lemma fill_ok (qh : buf blk) i (f : nat -> blk) : (i + 1) * N <= blen qh ->
  exists qh', for_loop N 0 (fun t qh => wr qh (i * N + t) (f t)) qh = Ok qh' /\ blen qh' = blen qh /\
    (forall t, t < N -> bdat qh' (i * N + t) = Some (f t)) /\ (forall a, a < i * N \/ (i + 1) * N <= a -> bdat qh' a = bdat qh a).
Proof.
  intros L. destruct (for_loop_inv (fun k q => blen q = blen qh /\ (forall t, t < k -> bdat q (i * N + t) = Some (f t)) /\
     (forall a, a < i * N \/ i * N + k <= a -> bdat q a = bdat qh a)) N 0 (fun t qh => wr qh (i * N + t) (f t)) qh) as [q [E [Lq [V K]]]].
  - split; [reflexivity|]. split; [lia|]. auto.
  - intros t q Ht [Lq [V K]]. rewrite Nat.mul_add_distr_r in L. rewrite wr_ok by lia. eexists. split; [reflexivity|]. cbn [blen bdat]. split; [exact Lq|]. split.
    + intros s Hs. unfold upd. destruct (Nat.eqb_spec (i * N + s) (i * N + t)) as [E|Ne]; [replace s with t by lia; reflexivity|]. apply V. lia.
    + intros a Ha. rewrite upd_other by lia. apply K. lia.
  - exists q. split; [exact E|]. split; [exact Lq|]. split; [exact V|]. intros a Ha. apply K. rewrite Nat.mul_add_distr_r in Ha. lia.
Qed.

Lemma predictor_ok ndim R qh wh mask F : blen mask * N <= blen qh -> (forall i, i < blen mask -> pcell ndim R wh mask i = Ok (F i)) ->
  exists qh', predictor N blk Phi ndim R qh wh mask = Ok qh' /\ blen qh' = blen qh /\
    forall i t, i < blen mask -> t < N -> bdat qh' (i * N + t) = match F i with Some f => Some (f t) | None => bdat qh (i * N + t) end.
Proof.
  intros L HF. unfold predictor.
  match goal with |- context [for_loop _ _ ?G _] =>
    destruct (for_loop_inv (fun k q => blen q = blen qh /\ (forall i t, i < k -> t < N -> bdat q (i * N + t) = match F i with Some f => Some (f t) | None => bdat qh (i * N + t) end) /\
     (forall a, k * N <= a -> bdat q a = bdat qh a)) (blen mask) 0 G qh) as [q [E [Lq [V K]]]] end.
  - split; [reflexivity|]. split; [lia|auto].
  - intros i q Hi [Lq [V K]]. rewrite predictor_step, HF by lia. cbn [bind].
    assert (Bi : (i + 1) * N <= blen mask * N) by (apply Nat.mul_le_mono_r; lia).
    destruct (F i) as [f|] eqn:EF.
    + destruct (fill_ok q i f ltac:(lia)) as [q' [E' [L' [V' K']]]]. exists q'. split; [exact E'|]. split; [congruence|]. split.
      * intros i' t Hi' Ht. destruct (Nat.eq_dec i' i) as [->|Ne]; [rewrite EF; apply V', Ht|].
        rewrite K' by (left; apply pack_lt; lia). apply V; [lia|exact Ht].
      * intros a Ha. rewrite K' by (right; replace (i + 1) with (1 + i) by lia; exact Ha). apply K. cbn in Ha. lia.
    + exists q. split; [reflexivity|]. split; [exact Lq|]. split.
      * intros i' t Hi' Ht. destruct (Nat.eq_dec i' i) as [->|Ne]; [rewrite EF; apply K; lia|]. apply V; [lia|exact Ht].
      * intros a Ha. apply K. cbn in Ha. lia.
  - exists q. split; [exact E|]. split; [exact Lq|]. exact V.
Qed.

Lemma predictor_inv ndim R qh wh mask qh' : predictor N blk Phi ndim R qh wh mask = Ok qh' -> forall i, i < blen mask -> exists F, pcell ndim R wh mask i = Ok F.
Proof.
  intros E. unfold predictor in E. 
  refine (for_loop_inv_ok (fun k _ => forall i, i < k -> exists F, pcell ndim R wh mask i = Ok F) _ _ _ _ _ E _ _); [lia|].
  intros i s s1 Hi H E1 j Hj. destruct (Nat.eq_dec j i) as [->|Ne]; [|apply H; lia].
  rewrite predictor_step in E1. apply bind_ok in E1. destruct E1 as [F [EF _]]. eauto.
Qed.

Lemma predictor_window ndim R wh wh' mask mask' o qh : window wh wh' (o * R) -> window mask mask' o -> blen wh' = blen mask' * R ->
  predictor N blk Phi ndim R (balloc (blen mask * N)) wh mask = Ok qh ->
  exists qh', predictor N blk Phi ndim R (balloc (blen mask' * N)) wh' mask' = Ok qh' /\ blen qh = blen mask * N /\ blen qh' = blen mask' * N /\ window qh qh' (o * N).
Proof.
  intros Ww Wm L E. pose proof (predictor_inv _ _ _ _ _ _ E) as HF.
  set (F := fun i => match pcell ndim R wh mask i with Ok f => f | _ => None end).
  assert (HF' : forall i, i < blen mask -> pcell ndim R wh mask i = Ok (F i)) by (intros i Hi; unfold F; destruct (HF i Hi) as [f ->]; reflexivity).
  destruct (predictor_ok ndim R (balloc (blen mask * N)) wh mask F) as [q [Eq [Lq Vq]]]; [cbn; lia|exact HF'|].
  rewrite E in Eq. injection Eq as <-. pose proof (proj1 Wm) as Lm.
  destruct (predictor_ok ndim R (balloc (blen mask' * N)) wh' mask' (fun i => F (o + i))) as [q' [Eq' [Lq' Vq']]].
  - cbn; lia.
  - intros i Hi. rewrite (pcell_window ndim R wh wh' mask mask' o i Ww Wm L Hi). apply HF'. lia.
  - exists q'. cbn [balloc blen] in *. split; [exact Eq'|]. split; [exact Lq|]. split; [exact Lq'|]. split.
    + rewrite Lq, Lq', <- Nat.mul_add_distr_r. apply Nat.mul_le_mono_r. exact Lm.
    + intros a Ha. rewrite Lq' in Ha. pose proof (Nat.div_mod a N ltac:(lia)) as Da. pose proof (Nat.mod_upper_bound a N ltac:(lia)) as Ma.
      assert (Hq : a / N < blen mask') by (apply Nat.div_lt_upper_bound; lia). rewrite (Nat.mul_comm N) in Da.
      rewrite Da at 1. rewrite Vq' by assumption. replace (o * N + a) with ((o + a / N) * N + a mod N) by (rewrite Nat.mul_add_distr_r; lia).
      rewrite Vq by lia. reflexivity.
Qed.

Definition mcell (HALF : bool) (ndim R : nat) (wh : buf num) (mask : buf bool) (i : nat) : res blk :=
  m <- rd mask i ;; rows <- gather (rd wh) R (i * R) ;; if ((m : bool) && HALF)%bool then mid ndim rows else Ok (view rows).

Lemma mid_step HALF ndim R wh mask i (rec : buf blk) :
  (m <- rd mask i ;; rows <- gather (rd wh) R (i * R) ;; b <- (if ((m : bool) && HALF)%bool then mid ndim rows else Ok (view rows)) ;; wr rec i b) =
  (b <- mcell HALF ndim R wh mask i ;; wr rec i b).
Proof. unfold mcell. destruct (rd mask i) as [[]| | |]; cbn [bind]; try reflexivity; destruct (gather (rd wh) R (i * R)); reflexivity. Qed.

Lemma midstepper_ok HALF ndim R rec wh mask B : blen mask <= blen rec -> (forall i, i < blen mask -> mcell HALF ndim R wh mask i = Ok (B i)) ->
  exists rec', midstepper blk view mid HALF ndim R rec wh mask = Ok rec' /\ blen rec' = blen rec /\ forall i, i < blen mask -> bdat rec' i = Some (B i).
Proof.
  intros L HB. unfold midstepper.
  match goal with |- context [for_loop _ _ ?G _] =>
    destruct (for_loop_inv (fun k q => blen q = blen rec /\ forall i, i < k -> bdat q i = Some (B i)) (blen mask) 0 G rec) as [q [E [Lq V]]] end.
  - split; [reflexivity|lia].
  - intros i q Hi [Lq V]. rewrite mid_step, HB by lia. cbn [bind]. rewrite wr_ok by lia. eexists. split; [reflexivity|]. cbn [blen bdat]. split; [exact Lq|].
    intros j Hj. unfold upd. destruct (Nat.eqb_spec j i) as [->|Ne]; [reflexivity|]. apply V. lia.
  - exists q. auto.
Qed.

Lemma midstepper_inv HALF ndim R rec wh mask rec' : midstepper blk view mid HALF ndim R rec wh mask = Ok rec' -> forall i, i < blen mask -> exists B, mcell HALF ndim R wh mask i = Ok B.
Proof.
  intros E. unfold midstepper in E.
  refine (for_loop_inv_ok (fun k _ => forall i, i < k -> exists B, mcell HALF ndim R wh mask i = Ok B) _ _ _ _ _ E _ _); [lia|].
  intros i s s1 Hi H E1 j Hj. destruct (Nat.eq_dec j i) as [->|Ne]; [|apply H; lia].
  rewrite mid_step in E1. apply bind_ok in E1. destruct E1 as [F [EF _]]. eauto.
Qed.

Lemma mcell_window HALF ndim R wh wh' mask mask' o i : window wh wh' (o * R) -> window mask mask' o -> blen wh' = blen mask' * R -> i < blen mask' ->
  mcell HALF ndim R wh' mask' i = mcell HALF ndim R wh mask (o + i).
Proof.
  intros Ww Wm L Hi. unfold mcell. rewrite (rd_window mask mask' o i Wm Hi). destruct (rd mask (o + i)); cbn [bind]; try reflexivity.
  rewrite (gather_window wh wh' (o * R) R (i * R) Ww), <- Nat.mul_add_distr_r; [reflexivity|].
  rewrite L. replace (i * R + R) with (S i * R) by (cbn; lia). apply Nat.mul_le_mono_r. lia.
Qed.

Lemma midstepper_window HALF ndim R wh wh' mask mask' o rec : window wh wh' (o * R) -> window mask mask' o -> blen wh' = blen mask' * R ->
  midstepper blk view mid HALF ndim R (balloc (blen mask)) wh mask = Ok rec ->
  exists rec', midstepper blk view mid HALF ndim R (balloc (blen mask')) wh' mask' = Ok rec' /\ blen rec = blen mask /\ blen rec' = blen mask' /\ window rec rec' o.
Proof.
  intros Ww Wm L E. pose proof (midstepper_inv _ _ _ _ _ _ _ E) as HB. pose proof (proj1 Wm) as Lm.
  destruct (Nat.eq_dec (blen mask) 0) as [Z|NZ].
  - assert (Z' : blen mask' = 0) by lia. unfold midstepper in *. rewrite Z in E. rewrite Z'. cbn [for_loop] in *. injection E as <-.
    eexists. split; [reflexivity|]. cbn [blen balloc]. rewrite Z. split; [reflexivity|]. split; [reflexivity|]. split; cbn [blen balloc]; [lia|reflexivity].
  - destruct (HB 0 ltac:(lia)) as [b0 _].
    set (B := fun i => match mcell HALF ndim R wh mask i with Ok f => f | _ => b0 end).
    assert (HB' : forall i, i < blen mask -> mcell HALF ndim R wh mask i = Ok (B i)) by (intros i Hi; unfold B; destruct (HB i Hi) as [f ->]; reflexivity).
    destruct (midstepper_ok HALF ndim R (balloc (blen mask)) wh mask B) as [q [Eq [Lq Vq]]]; [cbn; lia|exact HB'|].
    rewrite E in Eq. injection Eq as <-.
    destruct (midstepper_ok HALF ndim R (balloc (blen mask')) wh' mask' (fun i => B (o + i))) as [q' [Eq' [Lq' Vq']]].
    + cbn; lia.
    + intros i Hi. rewrite (mcell_window HALF ndim R wh wh' mask mask' o i Ww Wm L Hi). apply HB'. lia.
    + exists q'. cbn [balloc blen] in *. split; [exact Eq'|]. split; [exact Lq|]. split; [exact Lq'|]. split.
      * lia.
      * intros a Ha. rewrite Vq', Vq by lia. reflexivity.
Qed.
End Cells.

(** ** finite volume update *)
Section Fv.
Context {T blk : Type}.
Variables (center : nat -> blk -> res (list (T -> T))) (face : nat -> nat -> blk -> blk -> res ((T -> T) * (T -> T))).
Notation nt_of := (nt_of N).
Notation fvu := (fv_updates T blk N center face).

Lemma cell_window rec rec' mask mask' om orr a r t : window rec rec' orr -> window mask mask' om -> a < blen mask' -> r < blen rec' ->
  cell_at center rec' mask' a r t = cell_at center rec mask (om + a) (orr + r) t.
Proof. intros Wr Wm Ha Hr. unfold cell_at. rewrite (rd_window mask mask' om a Wm Ha), (rd_window rec rec' orr r Wr Hr). reflexivity. Qed.
Lemma face_window rec rec' mask mask' om orr d a0 a1 r0 r1 t : window rec rec' orr -> window mask mask' om ->
  a0 < blen mask' -> a1 < blen mask' -> r0 < blen rec' -> r1 < blen rec' ->
  face_at face rec' mask' d a0 a1 r0 r1 t = face_at face rec mask d (om + a0) (om + a1) (orr + r0) (orr + r1) t.
Proof. intros Wr Wm H0 H1 H2 H3. unfold face_at. rewrite !(rd_window mask mask' om _ Wm), !(rd_window rec rec' orr _ Wr) by assumption. reflexivity. Qed.

Lemma fv1_window TIME rec rec' (mask mask' : buf bool) o nx nx' l : o + nx' <= nx -> blen mask = nx + 2 -> blen mask' = nx' + 2 ->
  blen rec = (nx + 2) * nt_of TIME -> blen rec' = (nx' + 2) * nt_of TIME ->
  window rec rec' (o * nt_of TIME) -> window mask mask' o -> fvu TIME rec mask [nx] = Ok l ->
  exists l', fvu TIME rec' mask' [nx'] = Ok l' /\ (forall p, In p l' -> fst p < nx') /\ (forall p, In p l -> fst p < nx) /\
    forall c, c < nx' -> at_cell c l' = at_cell (o + c) l.
Proof.
  intros Ho Lm Lm' Lr Lr' Wr Wm E. destruct (fv1_inv N center face TIME rec mask nx l E) as [HC HP]. set (nt := nt_of TIME) in *.
  set (C := fun t i => match cell_at center rec mask (i + 1) (ind1 (i + 1) t nt) t with Ok c => c | _ => [] end).
  set (P := fun t i => match face_at face rec mask 0 i (i + 1) (ind1 i t nt) (ind1 (i + 1) t nt) t with Ok c => c | _ => None end).
  assert (HC' : forall t i, t < nt -> i < nx -> cell_at center rec mask (i + 1) (ind1 (i + 1) t nt) t = Ok (C t i)) by (intros t i Ht Hi; unfold C; destruct (HC t i Ht Hi) as [c ->]; reflexivity).
  assert (HP' : forall t i, t < nt -> i < nx + 1 -> face_at face rec mask 0 i (i + 1) (ind1 i t nt) (ind1 (i + 1) t nt) t = Ok (P t i)) by (intros t i Ht Hi; unfold P; destruct (HP t i Ht Hi) as [c ->]; reflexivity).
  destruct (fv1_ok N center face TIME rec mask nx C P HC' HP') as [l1 [E1 [B1 A1]]]. rewrite E in E1. injection E1 as <-.
  destruct (fv1_ok N center face TIME rec' mask' nx' (fun t i => C t (o + i)) (fun t i => P t (o + i))) as [l' [E' [B' A']]].
  - fold nt. intros t i Ht Hi. rewrite (cell_window rec rec' mask mask' o (o * nt) _ _ t Wr Wm); [|lia|].
    + rewrite <- HC' by lia. unfold ind1. f_equal; [lia|ring].
    + rewrite Lr'. unfold ind1. apply pack_lt; lia.
  - fold nt. intros t i Ht Hi. rewrite (face_window rec rec' mask mask' o (o * nt) 0 _ _ _ _ t Wr Wm); [|lia|lia| |].
    + rewrite <- HP' by lia. unfold ind1. f_equal; try lia; ring.
    + rewrite Lr'. unfold ind1. apply pack_lt; lia.
    + rewrite Lr'. unfold ind1. apply pack_lt; lia.
  - exists l'. split; [exact E'|]. split; [exact B'|]. split; [exact B1|]. intros c Hc. rewrite A', A1 by lia. fold nt. f_equal. apply flat_ext. intros t _. now rewrite Nat.add_succ_r.
Qed.

Lemma fv2_window TIME rec rec' (mask mask' : buf bool) o nx nx' ny l : o + nx' <= nx -> blen mask = (nx + 2) * (ny + 2) -> blen mask' = (nx' + 2) * (ny + 2) ->
  blen rec = (nx + 2) * (ny + 2) * nt_of TIME -> blen rec' = (nx' + 2) * (ny + 2) * nt_of TIME -> (forall a, a < blen mask -> bdat mask a <> None) ->
  window rec rec' (o * (ny + 2) * nt_of TIME) -> window mask mask' (o * (ny + 2)) -> fvu TIME rec mask [nx; ny] = Ok l ->
  exists l', fvu TIME rec' mask' [nx'; ny] = Ok l' /\ (forall p, In p l' -> fst p < nx' * ny) /\ (forall p, In p l -> fst p < nx * ny) /\
    forall c, c < nx' * ny -> at_cell c l' = at_cell (o * ny + c) l.
Proof.
  intros Ho Lm Lm' Lr Lr' Mi Wr Wm E. destruct (fv2_inv N center face TIME rec mask nx ny l E) as [HC [HX HY]]. set (nt := nt_of TIME) in *.
  set (C := fun t i j => match cell_at center rec mask ((i + 1) * (ny + 2) + (j + 1)) (ind2 (i + 1) (j + 1) t (ny + 2) nt) t with Ok c => c | _ => [] end).
  set (X := fun t i j => match xface face rec mask ny nt i j t with Ok c => c | _ => None end).
  set (Y := fun t i j => match yface face rec mask ny nt i j t with Ok c => c | _ => None end).
  assert (HC' : forall t i j, t < nt -> i < nx -> j < ny -> cell_at center rec mask ((i + 1) * (ny + 2) + (j + 1)) (ind2 (i + 1) (j + 1) t (ny + 2) nt) t = Ok (C t i j)) by (intros t i j Ht Hi Hj; unfold C; destruct (HC t i j Ht Hi Hj) as [c ->]; reflexivity).
  assert (HX' : forall t i j, t < nt -> i < nx + 1 -> 0 < j < ny + 1 -> xface face rec mask ny nt i j t = Ok (X t i j)) by (intros t i j Ht Hi Hj; unfold X; destruct (HX t i j Ht Hi Hj) as [c ->]; reflexivity).
  assert (HY' : forall t i j, t < nt -> 0 < i < nx + 1 -> j < ny + 1 -> yface face rec mask ny nt i j t = Ok (Y t i j)) by (intros t i j Ht Hi Hj; unfold Y; destruct (HY t i j Ht Hi Hj) as [c ->]; reflexivity).
  assert (HM : forall a, a < (nx + 2) * (ny + 2) -> exists m, rd mask a = Ok m).
  { intros a Ha. destruct (bdat mask a) as [m|] eqn:Em; [|destruct (Mi a ltac:(lia)); exact Em]. exists m. apply rd_ok; [lia|exact Em]. }
  destruct (fv2_ok N center face TIME rec mask nx ny C X Y HM HC' HX' HY') as [l1 [E1 [B1 A1]]]. rewrite E in E1. injection E1 as <-.
  assert (BI : forall i j t, i < nx' + 2 -> j < ny + 2 -> t < nt -> ind2 i j t (ny + 2) nt < blen rec').
  { intros i j t Hi Hj Ht. rewrite Lr'. unfold ind2. apply pack_lt; [apply pack_lt; assumption|exact Ht]. }
  assert (BM : forall i j, i < nx' + 2 -> j < ny + 2 -> i * (ny + 2) + j < blen mask') by (intros i j Hi Hj; rewrite Lm'; apply pack_lt; assumption).
  destruct (fv2_ok N center face TIME rec' mask' nx' ny (fun t i j => C t (o + i) j) (fun t i j => X t (o + i) j) (fun t i j => Y t (o + i) j)) as [l' [E' [B' A']]].
  - intros a Ha. rewrite (rd_window mask mask' _ a Wm) by lia. apply HM. pose proof (proj1 Wm). lia.
  - fold nt. intros t i j Ht Hi Hj. rewrite (cell_window rec rec' mask mask' (o * (ny + 2)) (o * (ny + 2) * nt) _ _ t Wr Wm); [|apply BM; lia|apply BI; lia].
    rewrite <- HC' by lia. unfold ind2. f_equal; ring.
  - fold nt. intros t i j Ht Hi Hj. unfold xface. rewrite (face_window rec rec' mask mask' (o * (ny + 2)) (o * (ny + 2) * nt) 0 _ _ _ _ t Wr Wm); [|apply BM; lia|apply BM; lia|apply BI; lia|apply BI; lia].
    rewrite <- HX' by lia. unfold xface, ind2. f_equal; ring.
  - fold nt. intros t i j Ht Hi Hj. unfold yface. rewrite (face_window rec rec' mask mask' (o * (ny + 2)) (o * (ny + 2) * nt) 1 _ _ _ _ t Wr Wm); [|apply BM; lia|apply BM; lia|apply BI; lia|apply BI; lia].
    rewrite <- HY' by lia. unfold yface, ind2. f_equal; ring.
  - exists l'. split; [exact E'|]. split; [exact B'|]. split; [exact B1|]. intros c Hc.
    assert (Y0 : ny <> 0) by (intros ->; lia).
    pose proof (Nat.div_mod c ny Y0) as Dc. pose proof (Nat.mod_upper_bound c ny Y0) as Mc. rewrite (Nat.mul_comm ny) in Dc.
    assert (Hq : c / ny < nx') by (apply Nat.div_lt_upper_bound; lia).
    replace (o * ny + c) with ((o + c / ny) * ny + c mod ny) by (rewrite Nat.mul_add_distr_r; lia).
    rewrite Dc at 1. rewrite A', A1 by lia. fold nt. f_equal. apply flat_ext. intros t _. now rewrite Nat.add_succ_r.
Qed.

Lemma fv_window TIME rec rec' (mask mask' : buf bool) o nx nx' rest l : dims rest -> o + nx' <= nx ->
  blen mask = ext (nx :: rest) 1 -> blen mask' = ext (nx' :: rest) 1 ->
  blen rec = ext (nx :: rest) 1 * nt_of TIME -> blen rec' = ext (nx' :: rest) 1 * nt_of TIME -> (forall a, a < blen mask -> bdat mask a <> None) ->
  window rec rec' (o * ext rest 1 * nt_of TIME) -> window mask mask' (o * ext rest 1) -> fvu TIME rec mask (nx :: rest) = Ok l ->
  exists l', fvu TIME rec' mask' (nx' :: rest) = Ok l' /\ (forall p, In p l' -> fst p < ext (nx' :: rest) 0) /\ (forall p, In p l -> fst p < ext (nx :: rest) 0) /\
    forall c, c < ext (nx' :: rest) 0 -> at_cell c l' = at_cell (o * ext rest 0 + c) l.
Proof.
  intros [->|[ny ->]]; cbn [ext map fold_right Nat.mul]; rewrite ?Nat.mul_1_r, ?Nat.add_0_r; intros.
  - eapply fv1_window; eassumption.
  - eapply fv2_window; eassumption.
Qed.
End Fv.
End P.
