(** Mask dilation and wall boundaries: proofs. *)
From Coq Require Import Reals Lra.
From Verif Require Import Base Options Mat3 GridModel GridSpec GridProof Paint.
Open Scope nat_scope.

Section M1.
Variables (nx : nat) (mask : buf bool) (m : nat -> bool).
Hypothesis Lm : blen mask = nx.
Hypothesis Dm : forall i, i < nx -> bdat mask i = Some (m i).

Definition mask1_val (a : nat) : bool :=
  m (a - 1) || ((0 <? a - 1) && m (a - 1 - 1)) || ((a - 1 <? nx - 1) && m (a - 1 + 1)).

Lemma mask1_near i : i < nx -> mask1_val (i + 1) = true <-> near1 nx m (Z.of_nat i).
Proof.
  intros Hi. unfold mask1_val, near1. replace (i + 1 - 1) with i by lia. rewrite !orb_true_iff, !andb_true_iff, !Nat.ltb_lt. split.
  - intros [[H|[H1 H]]|[H1 H]]; [exists i|exists (i - 1)|exists (i + 1)]; (split; [lia|split; [exact H|lia]]).
  - intros [k [Hk [Hm Hd]]]. assert (C : k = i \/ (k = i - 1 /\ 0 < i) \/ k = i + 1) by lia.
    destruct C as [-> |[[-> C] | ->]]; [left; left; exact Hm|left; right; auto|right; split; [lia|exact Hm]].
Qed.

Lemma extend_mask1_ok maskb : 0 < nx -> blen maskb = nx + 2 ->
  exists mb, extend_mask mask maskb [nx] = Ok mb /\ blen mb = nx + 2 /\
    exists v, (forall a, a < nx + 2 -> bdat mb a = Some (v a)) /\
      (forall i, i < nx -> (v (i + 1) = true <-> near1 nx m (Z.of_nat i))) /\ v 0 = v 1 /\ v (nx + 1) = v nx.
Proof.
  intros Hnx Lb. unfold extend_mask, extend_mask1.
  destruct (paints_for (nx + 2) (fun i => [i + 1]) mask1_val (fun i mb =>
      a <- rd mask i ;;
      b <- (if a then Ok true else if Nat.ltb 0 i then rd mask (i - 1) else Ok false) ;;
      c <- (if b then Ok true else if Nat.ltb i (nx - 1) then rd mask (i + 1) else Ok false) ;;
      wr mb (i + 1) c) nx 0) with (b := maskb) as [b1 [E1 [L1 [W1 K1]]]].
  - intros i Hi. rewrite (rd_ok mask i (m i)) by (rewrite ?Lm; try apply Dm; lia). cbn [bind].
    assert (E2 : (if m i then Ok true else if 0 <? i then rd mask (i - 1) else Ok false) = Ok (m i || ((0 <? i) && m (i - 1)))).
    { destruct (m i); [reflexivity|]. destruct (Nat.ltb_spec 0 i); [|reflexivity].
      rewrite (rd_ok mask (i - 1) (m (i - 1))) by (rewrite ?Lm; try apply Dm; lia). reflexivity. }
    rewrite E2. cbn [bind]. set (bb := m i || _).
    assert (E3 : (if bb then Ok true else if i <? nx - 1 then rd mask (i + 1) else Ok false) = Ok (bb || ((i <? nx - 1) && m (i + 1)))).
    { destruct bb; [reflexivity|]. destruct (Nat.ltb_spec i (nx - 1)); [|reflexivity].
      rewrite (rd_ok mask (i + 1) (m (i + 1))) by (rewrite ?Lm; try apply Dm; lia). reflexivity. }
    rewrite E3. cbn [bind]. apply paints_wr; [lia|]. unfold mask1_val. replace (i + 1 - 1) with i by lia. reflexivity.
  - exact Lb.
  - rewrite E1. cbn [bind].
    assert (V1 : forall a, 1 <= a <= nx -> bdat b1 a = Some (mask1_val a)).
    { intros a Ha. apply W1. apply in_flat_map. exists (a - 1). split; [apply in_seq; lia|cbn; lia]. }
    rewrite (rd_ok b1 1 (mask1_val 1)) by (try apply V1; lia). cbn [bind]. rewrite wr_ok by lia. cbn [bind].
    rewrite (rd_ok _ nx (mask1_val nx)); [|cbn; lia|cbn; rewrite upd_other by lia; apply V1; lia]. cbn [bind].
    rewrite wr_ok by (cbn; lia). eexists. split; [reflexivity|]. cbn. split; [exact L1|].
    exists (fun a => if a =? 0 then mask1_val 1 else if a =? nx + 1 then mask1_val nx else mask1_val a).
    split; [|split; [|split]].
    + intros a Ha. unfold upd. destruct (Nat.eqb_spec a (nx + 1)) as [-> |]; [destruct (Nat.eqb_spec (nx + 1) 0); [lia|reflexivity]|].
      destruct (Nat.eqb_spec a 0) as [-> |]; [reflexivity|]. apply V1. lia.
    + intros i Hi. destruct (Nat.eqb_spec (i + 1) 0); [lia|]. destruct (Nat.eqb_spec (i + 1) (nx + 1)); [lia|].
      apply mask1_near. exact Hi.
    + rewrite Nat.eqb_refl. change (1 =? 0) with false. cbv iota. destruct (Nat.eqb_spec 1 (nx + 1)); [lia|reflexivity].
    + destruct (Nat.eqb_spec (nx + 1) 0); [lia|]. rewrite Nat.eqb_refl. destruct (Nat.eqb_spec nx 0); [lia|].
      destruct (Nat.eqb_spec nx (nx + 1)); [lia|reflexivity].
Qed.
End M1.

Section M2.
Variables (nx ny : nat) (mask : buf bool) (m : nat -> nat -> bool).
Hypothesis Hnx : 0 < nx.
Hypothesis Hny : 0 < ny.
Hypothesis Lm : blen mask = nx * ny.
Hypothesis Dm : forall i j, i < nx -> j < ny -> bdat mask (i * ny + j) = Some (m i j).
Let W := ny + 2.

Lemma mask2_rd i j : i < nx -> j < ny -> rd mask (i * ny + j) = Ok (m i j).
Proof. intros Hi Hj. apply rd_ok; [rewrite Lm; nia|apply Dm; assumption]. Qed.

Lemma mask2_rd0 i : i < nx -> rd mask (i * ny) = Ok (m i 0).
Proof. intros Hi. rewrite <- (mask2_rd i 0) by lia. f_equal. lia. Qed.
Lemma mask2_rd1 j : j < ny -> rd mask j = Ok (m 0 j).
Proof. intros Hj. rewrite <- (mask2_rd 0 j) by lia. reflexivity. Qed.

(** masked, as a Boolean on signed coordinates *)
Definition mz (x y : Z) : bool :=
  ((0 <=? x) && (x <? Z.of_nat nx) && (0 <=? y) && (y <? Z.of_nat ny) && m (Z.to_nat x) (Z.to_nat y))%Z.
Definition mask2_at (x y : Z) : bool := (mz x y || mz (x - 1) y || mz (x + 1) y || mz x (y - 1) || mz x (y + 1))%Z.
Definition mask2_val (a : nat) : bool := mask2_at (Z.of_nat (a / W) - 1) (Z.of_nat (a mod W) - 1).

Lemma mz_true x y : mz x y = true <-> (0 <= x < Z.of_nat nx /\ 0 <= y < Z.of_nat ny)%Z /\ m (Z.to_nat x) (Z.to_nat y) = true.
Proof. unfold mz. rewrite !andb_true_iff, !Z.leb_le, !Z.ltb_lt. tauto. Qed.

Lemma mask2_near x y : mask2_at x y = true <-> near2 nx ny m x y.
Proof.
  unfold mask2_at, near2. rewrite !orb_true_iff, !mz_true. split.
  - intros [[[[H|H]|H]|H]|H]; destruct H as [[A B] H].
    + exists (Z.to_nat x), (Z.to_nat y). repeat split; [lia|lia|exact H|lia].
    + exists (Z.to_nat (x - 1)), (Z.to_nat y). repeat split; [lia|lia|exact H|lia].
    + exists (Z.to_nat (x + 1)), (Z.to_nat y). repeat split; [lia|lia|exact H|lia].
    + exists (Z.to_nat x), (Z.to_nat (y - 1)). repeat split; [lia|lia|exact H|lia].
    + exists (Z.to_nat x), (Z.to_nat (y + 1)). repeat split; [lia|lia|exact H|lia].
  - intros [k [l [Hk [Hl [Hm Hd]]]]].
    assert (C : (Z.of_nat k = x /\ Z.of_nat l = y \/ Z.of_nat k = x - 1 /\ Z.of_nat l = y \/ Z.of_nat k = x + 1 /\ Z.of_nat l = y
              \/ Z.of_nat k = x /\ Z.of_nat l = y - 1 \/ Z.of_nat k = x /\ Z.of_nat l = y + 1)%Z) by lia.
    destruct C as [[<- <-]|[[<- <-]|[[<- <-]|[[<- <-]|[<- <-]]]]]; rewrite !Nat2Z.id.
    + do 4 left. split; [lia|exact Hm].
    + do 3 left. right. split; [lia|exact Hm].
    + do 2 left. right. split; [lia|exact Hm].
    + left. right. split; [lia|exact Hm].
    + right. split; [lia|exact Hm].
Qed.

Lemma mz_in i j : i < nx -> j < ny -> mz (Z.of_nat i) (Z.of_nat j) = m i j.
Proof.
  intros Hi Hj. unfold mz. rewrite !Nat2Z.id.
  replace (0 <=? Z.of_nat i)%Z with true by (symmetry; apply Z.leb_le; lia).
  replace (Z.of_nat i <? Z.of_nat nx)%Z with true by (symmetry; apply Z.ltb_lt; lia).
  replace (0 <=? Z.of_nat j)%Z with true by (symmetry; apply Z.leb_le; lia).
  replace (Z.of_nat j <? Z.of_nat ny)%Z with true by (symmetry; apply Z.ltb_lt; lia). reflexivity.
Qed.
Lemma mz_out x y : ~ ((0 <= x < Z.of_nat nx) /\ (0 <= y < Z.of_nat ny))%Z -> mz x y = false.
Proof. intros H. destruct (mz x y) eqn:E; [|reflexivity]. apply mz_true in E. tauto. Qed.

Lemma val_at i j : j < W -> mask2_val (i * W + j) = mask2_at (Z.of_nat i - 1) (Z.of_nat j - 1).
Proof.
  intros Hj. unfold mask2_val. rewrite Nat.div_add_l by (unfold W; lia). rewrite (Nat.div_small j) by exact Hj.
  rewrite (Nat.add_comm (i * W) j), Nat.mod_add by (unfold W; lia). rewrite Nat.mod_small by exact Hj.
  rewrite Nat.add_0_r. reflexivity.
Qed.

Definition border_own : list nat :=
  (flat_map (fun i => [(i + 1) * W; (i + 1) * W + (ny + 1)]) (seq 0 nx) ++
   flat_map (fun j => [j + 1; (nx + 1) * W + (j + 1)]) (seq 0 ny)) ++
  [0] ++ [ny + 1] ++ [(nx + 1) * W] ++ [(nx + 1) * W + (ny + 1)].

Lemma border_paints : paints ((nx + 2) * W) border_own mask2_val (fun mb => mask_border mask nx ny mb).
Proof.
  assert (In1 : forall i j, i < nx + 2 -> j < W -> i * W + j < (nx + 2) * W) by (intros; nia).
  eapply (paints_ext _ _ _ _ (fun mb => mask_border mask nx ny mb)); [|reflexivity|intros a; unfold border_own; rewrite <- app_assoc; reflexivity].
  unfold mask_border. cbv zeta. fold W.
  apply paints_seq.
  { apply (paints_for ((nx + 2) * W) (fun i => [(i + 1) * W] ++ [(i + 1) * W + (ny + 1)])).
    intros i Hi.
    rewrite mask2_rd0 by lia. cbn [bind].
    unfold rdZ. destruct (Z.ltb_spec (Z.of_nat (i * ny) + (Z.of_nat ny - 1)) 0); [lia|].
    replace (Z.to_nat (Z.of_nat (i * ny) + (Z.of_nat ny - 1))) with (i * ny + (ny - 1)) by lia.
    rewrite mask2_rd by lia. cbn [bind]. apply paints_seq.
    - apply paints_wr; [rewrite <- (Nat.add_0_r ((i + 1) * W)); apply In1; unfold W; lia|].
      rewrite <- (Nat.add_0_r ((i + 1) * W)). rewrite val_at by (unfold W; lia).
      unfold mask2_at. rewrite !(mz_out _ (Z.of_nat 0 - 1)), (mz_out _ (Z.of_nat 0 - 1 - 1)) by lia.
      replace (Z.of_nat (i + 1) - 1)%Z with (Z.of_nat i) by lia. change (Z.of_nat 0 - 1 + 1)%Z with (Z.of_nat 0).
      rewrite mz_in by lia. reflexivity.
    - apply paints_wr; [apply In1; unfold W; lia|]. rewrite val_at by (unfold W; lia).
      unfold mask2_at. rewrite !(mz_out _ (Z.of_nat (ny + 1) - 1)), (mz_out _ (Z.of_nat (ny + 1) - 1 + 1)) by lia.
      replace (Z.of_nat (i + 1) - 1)%Z with (Z.of_nat i) by lia.
      replace (Z.of_nat (ny + 1) - 1 - 1)%Z with (Z.of_nat (ny - 1)) by lia. rewrite mz_in by lia. destruct (m i (ny - 1)); reflexivity. }
  apply paints_seq.
  { apply (paints_for ((nx + 2) * W) (fun j => [j + 1] ++ [(nx + 1) * W + (j + 1)])).
    intros j Hj. rewrite mask2_rd1 by lia. cbn [bind].
    unfold rdZ. destruct (Z.ltb_spec ((Z.of_nat nx - 1) * Z.of_nat ny + Z.of_nat j) 0); [nia|].
    replace (Z.to_nat ((Z.of_nat nx - 1) * Z.of_nat ny + Z.of_nat j)) with ((nx - 1) * ny + j) by nia.
    rewrite mask2_rd by lia. cbn [bind]. apply paints_seq.
    - apply paints_wr; [unfold W; nia|].
      change (j + 1) with (0 * W + (j + 1)). rewrite val_at by (unfold W; lia).
      unfold mask2_at. rewrite !(mz_out (Z.of_nat 0 - 1)), (mz_out (Z.of_nat 0 - 1 - 1)) by lia.
      replace (Z.of_nat (j + 1) - 1)%Z with (Z.of_nat j) by lia. change (Z.of_nat 0 - 1 + 1)%Z with (Z.of_nat 0).
      rewrite mz_in by lia. destruct (m 0 j); reflexivity.
    - apply paints_wr; [apply In1; unfold W; lia|]. rewrite val_at by (unfold W; lia).
      unfold mask2_at. rewrite !(mz_out (Z.of_nat (nx + 1) - 1)), (mz_out (Z.of_nat (nx + 1) - 1 + 1)) by lia.
      replace (Z.of_nat (j + 1) - 1)%Z with (Z.of_nat j) by lia.
      replace (Z.of_nat (nx + 1) - 1 - 1)%Z with (Z.of_nat (nx - 1)) by lia. rewrite mz_in by lia. destruct (m (nx - 1) j); reflexivity. }
  assert (Z0 : forall i j, (i = 0 \/ i = nx + 1) -> (j = 0 \/ j = ny + 1) -> false = mask2_val (i * W + j)).
  { intros i j Hi Hj. rewrite val_at by (unfold W; lia). unfold mask2_at. rewrite !mz_out by lia. reflexivity. }
  apply paints_seq; [apply paints_wr; [unfold W; nia|]; change 0 with (0 * W + 0) at 1; apply Z0; auto|].
  apply paints_seq; [apply paints_wr; [unfold W; nia|]; change (ny + 1) with (0 * W + (ny + 1)); apply Z0; auto|].
  apply paints_seq; [apply paints_wr; [unfold W; nia|]; rewrite <- (Nat.add_0_r ((nx + 1) * W)); apply Z0; auto|].
  apply paints_wr; [unfold W; nia|]. apply Z0; auto.
Qed.

Lemma extend_mask2_ok maskb : blen maskb = (nx + 2) * (ny + 2) ->
  exists mb, extend_mask mask maskb [nx; ny] = Ok mb /\ blen mb = (nx + 2) * (ny + 2) /\
    exists v, (forall i j, i < nx + 2 -> j < ny + 2 -> bdat mb (i * (ny + 2) + j) = Some (v i j)) /\
      (forall i j, i < nx + 2 -> j < ny + 2 -> (v i j = true <-> near2 nx ny m (Z.of_nat i - 1) (Z.of_nat j - 1))).
Proof.
  intros Lb. unfold extend_mask, extend_mask2. cbv zeta. fold W. fold W in Lb.
  match goal with |- exists mb, for_loop nx 0 ?F maskb = _ /\ _ =>
    assert (P : paints ((nx + 2) * W) (flat_map (fun i => flat_map (fun j => [(i + 1) * W + (j + 1)] ++ border_own) (seq 0 ny)) (seq 0 nx))
      mask2_val (fun b => for_loop nx 0 F b)) end.
  { apply paints_for. intros i Hi. apply paints_for. intros j Hj.
    rewrite mask2_rd by lia. cbn [bind].
    assert (S1 : forall a : bool, (if a then Ok true else if 0 <? i then rd mask ((i - 1) * ny + j) else Ok false) = Ok (a || mz (Z.of_nat i - 1) (Z.of_nat j))).
    { intros a. destruct a; [reflexivity|]. destruct (Nat.ltb_spec 0 i).
      - rewrite mask2_rd by lia. replace (Z.of_nat i - 1)%Z with (Z.of_nat (i - 1)) by lia. rewrite mz_in by lia. reflexivity.
      - rewrite mz_out by lia. reflexivity. }
    assert (S2 : forall a : bool, (if a then Ok true else if i <? nx - 1 then rd mask ((i + 1) * ny + j) else Ok false) = Ok (a || mz (Z.of_nat i + 1) (Z.of_nat j))).
    { intros a. destruct a; [reflexivity|]. destruct (Nat.ltb_spec i (nx - 1)).
      - rewrite mask2_rd by lia. replace (Z.of_nat i + 1)%Z with (Z.of_nat (i + 1)) by lia. rewrite mz_in by lia. reflexivity.
      - rewrite mz_out by lia. reflexivity. }
    assert (S3 : forall a : bool, (if a then Ok true else if 0 <? j then rd mask (i * ny + (j - 1)) else Ok false) = Ok (a || mz (Z.of_nat i) (Z.of_nat j - 1))).
    { intros a. destruct a; [reflexivity|]. destruct (Nat.ltb_spec 0 j).
      - rewrite mask2_rd by lia. replace (Z.of_nat j - 1)%Z with (Z.of_nat (j - 1)) by lia. rewrite mz_in by lia. reflexivity.
      - rewrite mz_out by lia. reflexivity. }
    assert (S4 : forall a : bool, (if a then Ok true else if j <? ny - 1 then rd mask (i * ny + (j + 1)) else Ok false) = Ok (a || mz (Z.of_nat i) (Z.of_nat j + 1))).
    { intros a. destruct a; [reflexivity|]. destruct (Nat.ltb_spec j (ny - 1)).
      - rewrite mask2_rd by lia. replace (Z.of_nat j + 1)%Z with (Z.of_nat (j + 1)) by lia. rewrite mz_in by lia. reflexivity.
      - rewrite mz_out by lia. reflexivity. }
    rewrite S1. cbn [bind]. rewrite S2. cbn [bind]. rewrite S3. cbn [bind]. rewrite S4. cbn [bind].
    apply paints_seq; [|apply border_paints].
    apply paints_wr; [assert (i + 2 <= nx + 1) by lia; unfold W; nia|]. rewrite val_at by (unfold W; lia). unfold mask2_at.
    replace (Z.of_nat (i + 1) - 1)%Z with (Z.of_nat i) by lia. replace (Z.of_nat (j + 1) - 1)%Z with (Z.of_nat j) by lia.
    rewrite mz_in by lia. reflexivity. }
  destruct (P maskb Lb) as [mb [E [L [Wr _]]]]. exists mb. split; [exact E|]. split; [exact L|].
  exists (fun i j => mask2_val (i * W + j)). split.
  - intros i j Hi Hj. fold W. apply Wr. apply in_flat_map.
    assert (B : In (i * W + j) border_own -> exists x, In x (seq 0 nx) /\ In (i * W + j) (flat_map (fun j => [(x + 1) * W + (j + 1)] ++ border_own) (seq 0 ny))).
    { intros HB. exists 0. split; [apply in_seq; lia|]. apply in_flat_map. exists 0. split; [apply in_seq; lia|]. apply in_or_app. auto. }
    assert (Ci : i = 0 \/ i = nx + 1 \/ 1 <= i <= nx) by lia. assert (Cj : j = 0 \/ j = ny + 1 \/ 1 <= j <= ny) by lia.
    unfold border_own in B. rewrite !in_app_iff, !in_flat_map in B. cbn [In] in B.
    destruct Ci as [Ci|[Ci|Ci]]; destruct Cj as [Cj|[Cj|Cj]].
    1,2: apply B; right; subst; cbn; lia.
    1: { apply B. left. right. exists (j - 1). split; [apply in_seq; lia|]. subst; cbn; lia. }
    1,2: apply B; right; subst; lia.
    1: { apply B. left. right. exists (j - 1). split; [apply in_seq; lia|]. right. left. subst. f_equal. lia. }
    1: { apply B. left. left. exists (i - 1). split; [apply in_seq; lia|]. left. subst. rewrite Nat.add_0_r. f_equal. lia. }
    1: { apply B. left. left. exists (i - 1). split; [apply in_seq; lia|]. right. left. subst. f_equal. f_equal. lia. }
    exists (i - 1). split; [apply in_seq; lia|]. apply in_flat_map. exists (j - 1). split; [apply in_seq; lia|].
    cbn [app In]. left. f_equal; [f_equal|]; lia.
  - intros i j Hi Hj. rewrite val_at by exact Hj. apply mask2_near.
Qed.
End M2.

(** ** walls *)
Open Scope R_scope.

Lemma same_strain_refl A B : meq A B -> same_strain A B.
Proof.
  intros H. unfold same_strain, trace3, gram, mmul, mtr, det3, sum3. rewrite !H by lia. auto.
Qed.

Lemma same_strain_flip d A B : (d < 3)%nat -> (forall i j, (i < 3)%nat -> (j < 3)%nat -> B i j = flip d i * flip d j * A i j) ->
  same_strain B A.
Proof.
  intros Hd H. unfold same_strain, trace3, gram, mmul, mtr, det3, sum3. rewrite !H by lia.
  assert (C : d = 0%nat \/ d = 1%nat \/ d = 2%nat) by lia.
  destruct C as [-> |[-> | ->]]; unfold flip; cbn [Nat.eqb]; repeat split; ring.
Qed.

Lemma wall_momentum o U Vt d q : DESTRESS o = false -> (d < 3)%nat ->
  (forall k, wall o (destress U Vt) SLIP d q k = (if Nat.eqb k (2 + d) then - q k else q k)) /\
  (forall k, wall o (destress U Vt) STICK d q k = (if Nat.leb 2 k && Nat.leb k 4 then - q k else q k)) /\
  (forall k, k <> 1%nat -> wall o (destress U Vt) MOVING d q k =
     (if Nat.eqb k 2 then 2 * q 0%nat - q 2%nat else if Nat.eqb k 3 || Nat.eqb k 4 then - q k else q k)) /\
  (forall k, ~ (5 <= k < 14)%nat -> wall o (destress U Vt) SYMMETRIC d q k = (if Nat.eqb k (2 + d) then - q k else q k)) /\
  (forall i j, (i < 3)%nat -> (j < 3)%nat ->
     wall o (destress U Vt) SYMMETRIC d q (5 + 3 * i + j)%nat = flip d i * flip d j * q (5 + 3 * i + j)%nat).
Proof.
  intros HD Hd. unfold wall. rewrite HD. cbn [Nat.eqb SLIP STICK MOVING SYMMETRIC].
  split; [|split; [|split; [|split]]].
  - intros k. unfold upd. destruct (Nat.eqb_spec k (2 + d)) as [-> |]; reflexivity.
  - intros k. unfold upd. do 5 (destruct k as [|k]; [cbn; reflexivity|]). reflexivity.
  - intros k Hk. unfold upd. do 5 (destruct k as [|k]; [cbn; try reflexivity; try ring; try congruence|]). reflexivity.
  - intros k Hk. unfold upd.
    repeat match goal with |- context [Nat.eqb k ?n] => destruct (Nat.eqb_spec k n); try (exfalso; lia) end; subst; auto; reflexivity.
  - intros i j Hi Hj.
    assert (C : d = 0%nat \/ d = 1%nat \/ d = 2%nat) by lia.
    assert (Ci : i = 0%nat \/ i = 1%nat \/ i = 2%nat) by lia.
    assert (Cj : j = 0%nat \/ j = 1%nat \/ j = 2%nat) by lia.
    destruct C as [-> |[-> | ->]]; destruct Ci as [-> |[-> | ->]]; destruct Cj as [-> |[-> | ->]];
      unfold flip, upd; cbn; ring.
Qed.

Lemma wall_energy o U Vt ty d q : DESTRESS o = false -> (d < 3)%nat -> (2 <= ty <= 5)%nat -> q 0%nat <> 0 ->
  let g := wall o (destress U Vt) ty d q in
  g 0%nat = q 0%nat /\ g 1%nat - kinetic g = q 1%nat - kinetic q /\ same_strain (distortion g) (distortion q) /\
  (forall k, (14 <= k)%nat -> g k = q k).
Proof.
  intros HD Hd Hty Hq g. destruct (wall_momentum o U Vt d q HD Hd) as [H2 [H3 [H4 [H5 HA]]]].
  assert (C : (ty = SLIP \/ ty = STICK \/ ty = MOVING \/ ty = SYMMETRIC)%nat) by (unfold SLIP, STICK, MOVING, SYMMETRIC; lia).
  assert (Cd : d = 0%nat \/ d = 1%nat \/ d = 2%nat) by lia.
  destruct C as [-> |[-> |[-> | ->]]]; subst g.
  - split; [rewrite H2; reflexivity|]. split; [|split].
    + unfold kinetic. rewrite !H2. destruct Cd as [-> |[-> | ->]]; cbn; field; exact Hq.
    + apply same_strain_refl. intros i j Hi Hj. unfold distortion. rewrite H2.
      destruct (Nat.eqb_spec (5 + 3 * i + j) (2 + d)); [lia|reflexivity].
    + intros k Hk. rewrite H2. destruct (Nat.eqb_spec k (2 + d)); [lia|reflexivity].
  - split; [rewrite H3; reflexivity|]. split; [|split].
    + unfold kinetic. rewrite !H3. cbn. field; exact Hq.
    + apply same_strain_refl. intros i j Hi Hj. unfold distortion. rewrite H3.
      destruct (Nat.leb_spec (5 + 3 * i + j) 4); [lia|]. rewrite andb_false_r. reflexivity.
    + intros k Hk. rewrite H3. destruct (Nat.leb_spec k 4); [lia|]. rewrite andb_false_r. reflexivity.
  - split; [rewrite H4 by lia; reflexivity|]. split; [|split].
    + assert (E1 : wall o (destress U Vt) MOVING d q 1%nat = q 1%nat + ((2 * q 0%nat - q 2%nat) * (2 * q 0%nat - q 2%nat) - q 2%nat * q 2%nat) / (2 * q 0%nat)).
      { unfold wall. rewrite HD. cbn [Nat.eqb SLIP STICK MOVING SYMMETRIC]. unfold upd. cbn. field. exact Hq. }
      unfold kinetic. rewrite (H4 0%nat), (H4 2%nat), (H4 3%nat), (H4 4%nat), E1 by lia. cbn. field; exact Hq.
    + apply same_strain_refl. intros i j Hi Hj. unfold distortion. rewrite H4 by lia.
      destruct (Nat.eqb_spec (5 + 3 * i + j) 2); [lia|]. destruct (Nat.eqb_spec (5 + 3 * i + j) 3); [lia|].
      destruct (Nat.eqb_spec (5 + 3 * i + j) 4); [lia|]. reflexivity.
    + intros k Hk. rewrite H4 by lia. destruct (Nat.eqb_spec k 2); [lia|]. destruct (Nat.eqb_spec k 3); [lia|].
      destruct (Nat.eqb_spec k 4); [lia|]. reflexivity.
  - split; [rewrite H5 by lia; reflexivity|]. split; [|split].
    + unfold kinetic. rewrite !H5 by lia. destruct Cd as [-> |[-> | ->]]; cbn; field; exact Hq.
    + apply (same_strain_flip d); [exact Hd|]. exact HA.
    + intros k Hk. rewrite H5 by lia. destruct (Nat.eqb_spec k (2 + d)); [lia|reflexivity].
Qed.

(** with DESTRESS the strain energy changes while the total energy does not *)
Lemma cbrt8 : Rpower 8 (1 / 3) = 2.
Proof.
  replace 8 with (2 ^ 3) by ring. rewrite <- Rpower_pow by lra. rewrite Rpower_mult.
  replace (INR 3 * (1 / 3)) with 1 by (simpl; field). apply Rpower_1. lra.
Qed.

(** A = diag(1, 1, 8), whose SVD has U = V = I *)
Definition q_stressed : vec := fun k => match k with 0%nat => 1 | 1%nat => 10 | 5%nat => 1 | 9%nat => 1 | 13%nat => 8 | _ => 0 end.
Definition destress_on : options := mkopt true false false 2 true true 2.

Lemma destress_strain :
  distortion q_stressed 0%nat 0%nat = 1 /\
  meq (mmul (mtr id3) id3) id3 /\
  meq (distortion q_stressed) (mmul (mmul id3 (fun i j => distortion q_stressed i i * delta i j)) id3) /\
  let g := wall destress_on (destress id3 id3) SLIP 0 q_stressed in
  g 1%nat = q_stressed 1%nat /\ kinetic g = kinetic q_stressed /\
  ~ same_strain (distortion g) (distortion q_stressed).
Proof.
  assert (D : forall f : mat3, (forall i j, f i j = distortion q_stressed i j) -> det3 f = 8).
  { intros f H. unfold det3. rewrite !H. unfold distortion. cbn. ring. }
  split; [reflexivity|]. split; [|split; [|split; [|split]]].
  - intros i j Hi Hj. unfold mmul, mtr, id3, sum3, delta.
    do 3 (destruct i as [|i]; [do 3 (destruct j as [|j]; [cbn; ring|]); lia|]). lia.
  - intros i j Hi Hj. unfold mmul, id3, sum3, delta, distortion, q_stressed.
    do 3 (destruct i as [|i]; [do 3 (destruct j as [|j]; [cbn; ring|]); lia|]). lia.
  - unfold wall, destress. cbn. unfold upd. cbn. reflexivity.
  - unfold kinetic, wall, destress. cbn. unfold upd. cbn. field.
  - intros [_ [_ E]]. revert E.
    assert (G : forall i j, (i < 3)%nat -> (j < 3)%nat -> distortion (wall destress_on (destress id3 id3) SLIP 0 q_stressed) i j =
              2 * 2 * delta i j - distortion q_stressed i j).
    { intros i j Hi Hj. unfold distortion, wall. cbn [Nat.eqb SLIP destress_on DESTRESS]. unfold destress at 1.
      set (A := fun i j => _). assert (DA : det3 A = 8).
      { apply D. intros a b. unfold A, distortion, upd. destruct (Nat.eqb_spec (5 + 3 * a + b) (2 + 0)); [lia|]. reflexivity. }
      rewrite DA, cbrt8. clear DA.
      do 3 (destruct i as [|i]; [do 3 (destruct j as [|j]; [unfold A, upd, q_stressed, msub, mscal, mmul, sum3, id3, delta; cbn; ring|]); lia|]). lia. }
    unfold det3 at 1. rewrite !G by lia. rewrite (D (distortion q_stressed)) by reflexivity. unfold distortion, delta. cbn. lra.
Qed.

(** ** too few cells for the ghost layers *)
Open Scope nat_scope.
Lemma boundaries_small_lemma (cell : Type) GN wallf (u ub : buf cell) nx bt :
  0 < nx -> nx < GN -> blen u = nx -> (forall i, i < nx -> exists c, bdat u i = Some c) ->
  blen ub = extended_dimensions [nx] GN -> 1 <= bt 0 <= 5 ->
  is_ub (boundaries cell GN wallf u ub [nx] bt).
Proof.
  intros H0 HN Lu Du Lub Hbt. cbn in Lub. rewrite Nat.mul_1_r in Lub. unfold boundaries.
  destruct (for_loop_inv (fun _ b => blen b = nx + 2 * GN) nx 0 (fun i ub => q <- rd u i ;; wr ub (GN + i) q) ub) as [b1 [E1 L1]].
  - exact Lub.
  - intros i b Hi Lb. destruct (Du i ltac:(lia)) as [c Ec]. rewrite (rd_ok u i c) by (rewrite ?Lu; auto; lia). cbn [bind].
    rewrite wr_ok by lia. eexists. split; [reflexivity|]. exact Lb.
  - rewrite E1. cbn [bind]. unfold boundaries1. cbv zeta. destruct GN as [|GN]; [lia|].
    destruct (Nat.eqb_spec (bt 0) TRANSMISSIVE) as [C|C]; [unfold TRANSMISSIVE in C; lia|].
    destruct (Nat.eqb_spec (bt 0) PERIODIC) as [P|P].
    + cbn [for_loop]. unfold rdrow, row.
      destruct (Z.ltb_spec (Z.of_nat nx - Z.of_nat (S GN) + Z.of_nat 0) 0); [|lia]. cbn. eexists. reflexivity.
    + destruct (Nat.leb_spec (bt 0) SYMMETRIC) as [Q|Q]; [|unfold SYMMETRIC in Q; lia].
      cbn [for_loop]. unfold rdrow, row.
      destruct (Z.ltb_spec (Z.of_nat (S GN) - 1 - Z.of_nat 0) 0); [lia|].
      destruct (Z.leb_spec (Z.of_nat nx) (Z.of_nat (S GN) - 1 - Z.of_nat 0)); [|lia]. cbn. eexists. reflexivity.
Qed.
