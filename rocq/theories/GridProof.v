(** Ghost layers: proofs. *)
From Verif Require Import Base Options GridModel GridSpec.
Open Scope nat_scope.

Lemma row_ok base stride rows r : (0 <= r < Z.of_nat rows)%Z -> row base stride rows r = Ok (base + stride * Z.to_nat r).
Proof. intros H. unfold row. destruct (Z.ltb_spec r 0); [lia|]. destruct (Z.leb_spec (Z.of_nat rows) r); [lia|reflexivity]. Qed.

(** a loop that writes value [val i] at address [dst i] *)
Lemma fill_loop {A} n (dst : nat -> nat) (val : nat -> A) (f : nat -> buf A -> res (buf A)) (b : buf A) :
  (forall i b', i < n -> blen b' = blen b -> (forall a, (forall k, k < i -> a <> dst k) -> bdat b' a = bdat b a) ->
     f i b' = wr b' (dst i) (val i)) ->
  (forall i, i < n -> dst i < blen b) ->
  (forall i j, i < n -> j < n -> dst i = dst j -> i = j) ->
  exists b', for_loop n 0 f b = Ok b' /\ blen b' = blen b /\
    (forall i, i < n -> bdat b' (dst i) = Some (val i)) /\
    (forall a, (forall i, i < n -> a <> dst i) -> bdat b' a = bdat b a).
Proof.
  intros Hf Hr Hinj.
  destruct (for_loop_inv (fun i b' => blen b' = blen b /\ (forall k, k < i -> bdat b' (dst k) = Some (val k)) /\
     (forall a, (forall k, k < i -> a <> dst k) -> bdat b' a = bdat b a)) n 0 f b) as [b' [E [L [W K]]]].
  - split; [reflexivity|]. split; [intros; lia|auto].
  - intros i b' Hi [L [W K]]. rewrite (Hf i b' ltac:(lia) L K). specialize (Hr i ltac:(lia)).
    rewrite wr_ok by lia. eexists. split; [reflexivity|]. cbn. split; [exact L|]. split.
    + intros k Hk. destruct (Nat.eq_dec k i) as [-> |Nk]; [apply upd_same|].
      rewrite upd_other; [apply W; lia|]. intros E. apply Nk, Hinj; [lia|lia|exact E].
    + intros a Ha. rewrite upd_other; [apply K; intros; apply Ha; lia|]. apply Ha. lia.
  - exists b'. cbn in *. auto.
Qed.

(** a loop of independent steps, each writing its own set of addresses *)
Lemma block_loop {A} n (own : nat -> nat -> Prop) (val : nat -> A) (f : nat -> buf A -> res (buf A)) (b : buf A) :
  (forall i b', i < n -> blen b' = blen b -> (forall a, (forall k, k < i -> ~ own k a) -> bdat b' a = bdat b a) ->
     exists b'', f i b' = Ok b'' /\ blen b'' = blen b /\ (forall a, own i a -> bdat b'' a = Some (val a)) /\
       (forall a, ~ own i a -> bdat b'' a = bdat b' a)) ->
  (forall k a, own k a \/ ~ own k a) ->
  (forall i j a, i < n -> j < n -> own i a -> own j a -> i = j) ->
  exists b', for_loop n 0 f b = Ok b' /\ blen b' = blen b /\
    (forall i a, i < n -> own i a -> bdat b' a = Some (val a)) /\
    (forall a, (forall i, i < n -> ~ own i a) -> bdat b' a = bdat b a).
Proof.
  intros Hf Hd Hinj.
  destruct (for_loop_inv (fun i b' => blen b' = blen b /\ (forall k a, k < i -> own k a -> bdat b' a = Some (val a)) /\
     (forall a, (forall k, k < i -> ~ own k a) -> bdat b' a = bdat b a)) n 0 f b) as [b' [E [L [W K]]]].
  - split; [reflexivity|]. split; [intros; lia|auto].
  - intros i b' Hi [L [W K]]. destruct (Hf i b' ltac:(lia) L K) as [b'' [E [L'' [W'' K'']]]].
    exists b''. split; [exact E|]. split; [exact L''|]. split.
    + intros k a Hk Ho. destruct (Hd i a) as [Hi'|Hi']; [apply W''; exact Hi'|].
      rewrite K'' by exact Hi'. apply (W k a); [|exact Ho].
      destruct (Nat.eq_dec k i) as [-> |]; [contradiction|lia].
    + intros a Ha. rewrite K'' by (apply Ha; lia). apply K. intros; apply Ha; lia.
  - exists b'. split; [exact E|]. split; [exact L|]. split; [intros i a Hi; apply W; lia|].
    intros a Ha. apply K. intros; apply Ha; lia.
Qed.

Section G.
Variable cell : Type.
Variable GN : nat.
Variable wallf : nat -> nat -> cell -> cell.
Notation boundaries1 := (boundaries1 cell GN wallf).
Notation boundaries2 := (boundaries2 cell GN wallf).
Notation boundaries := (boundaries cell GN wallf).
Notation extend1 := (extend1 cell wallf).
Notation extend2 := (extend2 cell wallf).

Lemma b1_ok rdu ubase ustride nx bt0 bt1 d ub f :
  GN <= nx -> 0 < nx -> bt0 <= 5 -> bt1 <= 5 -> 0 < ustride ->
  (forall k, k < nx + 2 * GN -> ubase + ustride * k < blen ub) ->
  (forall b' r, blen b' = blen ub ->
     (forall a, (forall k, k < GN \/ nx + GN <= k < nx + 2 * GN -> a <> ubase + ustride * k) -> bdat b' a = bdat ub a) ->
     (0 <= r < Z.of_nat nx)%Z -> rdu b' r = Ok (f r)) ->
  exists ub', boundaries1 rdu ubase ustride nx bt0 bt1 d ub = Ok ub' /\ blen ub' = blen ub /\
    (forall k, k < GN \/ nx + GN <= k < nx + 2 * GN ->
       bdat ub' (ubase + ustride * k) = Some (extend1 bt0 bt1 d (Z.of_nat nx) f (Z.of_nat k - Z.of_nat GN)%Z)) /\
    (forall a, (forall k, k < GN \/ nx + GN <= k < nx + 2 * GN -> a <> ubase + ustride * k) -> bdat ub' a = bdat ub a).
Proof.
  intros HN Hnx H0 H1 Hs Hr Hrd. unfold GridModel.boundaries1. cbv zeta.
  assert (Inj : forall i j, ubase + ustride * i = ubase + ustride * j -> i = j) by (intros; nia).
  (* one side *)
  assert (Copy : forall (src : nat -> Z) (dst : nat -> nat) (w : cell -> cell) (b : buf cell),
    blen b = blen ub ->
    (forall a, (forall k, k < GN \/ nx + GN <= k < nx + 2 * GN -> a <> ubase + ustride * k) -> bdat b a = bdat ub a) ->
    (forall i, i < GN -> (0 <= src i < Z.of_nat nx)%Z) ->
    (forall i, i < GN -> dst i < GN \/ nx + GN <= dst i < nx + 2 * GN) ->
    (forall i j, dst i = dst j -> i = j) ->
    exists b', for_loop GN 0 (fun i ub =>
      q <- rdu ub (src i) ;;
      a <- row ubase ustride (nx + 2 * GN) (Z.of_nat (dst i)) ;;
      wr ub a (w q)) b = Ok b' /\ blen b' = blen ub /\
      (forall i, i < GN -> bdat b' (ubase + ustride * dst i) = Some (w (f (src i)))) /\
      (forall a, (forall i, i < GN -> a <> ubase + ustride * dst i) -> bdat b' a = bdat b a)).
  { intros src dst w b Lb Kb Hsrc Hdst Hd.
    destruct (fill_loop GN (fun i => ubase + ustride * dst i) (fun i => w (f (src i)))
      (fun i ub => q <- rdu ub (src i) ;; a <- row ubase ustride (nx + 2 * GN) (Z.of_nat (dst i)) ;; wr ub a (w q)) b)
      as [b' [E [L [W K]]]].
    - intros i b' Hi L K. rewrite (Hrd b' (src i)); [|lia| |apply Hsrc; exact Hi].
      + cbn [bind]. rewrite row_ok by (specialize (Hdst i Hi); lia). cbn [bind]. rewrite Nat2Z.id. reflexivity.
      + intros a Ha. rewrite K; [apply Kb; exact Ha|]. intros k Hk. apply Ha. apply Hdst. lia.
    - intros i Hi. rewrite Lb. apply Hr. specialize (Hdst i Hi). lia.
    - intros i j _ _ E. apply Hd, Inj. exact E.
    - exists b'. split; [exact E|]. split; [lia|]. auto. }
  (* left side *)
  assert (Left : exists b', (if bt0 =? TRANSMISSIVE
      then for_loop GN 0 (fun i ub0 => q <- rdu ub0 0%Z ;; a <- row ubase ustride (nx + 2 * GN) (Z.of_nat i) ;; wr ub0 a q) ub
      else if bt0 =? PERIODIC
      then for_loop GN 0 (fun i ub0 => q <- rdu ub0 (Z.of_nat nx - Z.of_nat GN + Z.of_nat i)%Z ;;
             a <- row ubase ustride (nx + 2 * GN) (Z.of_nat i) ;; wr ub0 a q) ub
      else if bt0 <=? SYMMETRIC
      then for_loop GN 0 (fun i ub0 => q <- rdu ub0 (Z.of_nat GN - 1 - Z.of_nat i)%Z ;;
             a <- row ubase ustride (nx + 2 * GN) (Z.of_nat i) ;; wr ub0 a (wallf bt0 d q)) ub
      else Ok ub) = Ok b' /\ blen b' = blen ub /\
      (forall i, i < GN -> bdat b' (ubase + ustride * i) =
         Some (extend1 bt0 bt1 d (Z.of_nat nx) f (Z.of_nat i - Z.of_nat GN)%Z)) /\
      (forall a, (forall i, i < GN -> a <> ubase + ustride * i) -> bdat b' a = bdat ub a)).
  { destruct (Nat.eqb_spec bt0 TRANSMISSIVE) as [E0|E0]; [|destruct (Nat.eqb_spec bt0 PERIODIC) as [E1|E1];
      [|destruct (Nat.leb_spec bt0 SYMMETRIC) as [E2|E2]; [|unfold SYMMETRIC in E2; lia]]].
    - destruct (Copy (fun _ => 0%Z) (fun i => i) (fun q => q) ub) as [b' [E [L [W K]]]]; auto; try lia.
      exists b'. split; [exact E|]. split; [exact L|]. split; [|exact K]. intros i Hi. rewrite (W i Hi). f_equal.
      unfold extend1. destruct (Z.ltb_spec (Z.of_nat i - Z.of_nat GN) 0); [|lia]. rewrite E0. reflexivity.
    - destruct (Copy (fun i => (Z.of_nat nx - Z.of_nat GN + Z.of_nat i)%Z) (fun i => i) (fun q => q) ub) as [b' [E [L [W K]]]]; auto; try lia.
      exists b'. split; [exact E|]. split; [exact L|]. split; [|exact K]. intros i Hi. rewrite (W i Hi). f_equal.
      unfold extend1. destruct (Z.ltb_spec (Z.of_nat i - Z.of_nat GN) 0); [|lia]. rewrite E1. unfold PERIODIC. cbn [ghost].
      f_equal. apply (Z.mod_unique (Z.of_nat i - Z.of_nat GN) (Z.of_nat nx) (-1) (Z.of_nat nx - Z.of_nat GN + Z.of_nat i)); lia.
    - destruct (Copy (fun i => (Z.of_nat GN - 1 - Z.of_nat i)%Z) (fun i => i) (wallf bt0 d) ub) as [b' [E [L [W K]]]]; auto; try lia.
      exists b'. split; [exact E|]. split; [exact L|]. split; [|exact K]. intros i Hi. rewrite (W i Hi). f_equal.
      unfold extend1. destruct (Z.ltb_spec (Z.of_nat i - Z.of_nat GN) 0); [|lia]. unfold ghost.
      unfold TRANSMISSIVE, PERIODIC in *. destruct bt0 as [|[|bt0]]; try lia. f_equal. f_equal. lia. }
  destruct Left as [b1 [El [L1 [W1 K1]]]]. rewrite El. cbn [bind].
  assert (Kb1 : forall a, (forall k, k < GN \/ nx + GN <= k < nx + 2 * GN -> a <> ubase + ustride * k) -> bdat b1 a = bdat ub a).
  { intros a Ha. apply K1. intros i Hi. apply Ha. lia. }
  assert (Right : exists b', (if bt1 =? TRANSMISSIVE
      then for_loop GN 0 (fun i ub0 => q <- rdu ub0 (Z.of_nat nx - 1)%Z ;;
             a <- row ubase ustride (nx + 2 * GN) (Z.of_nat (i + nx + GN)) ;; wr ub0 a q) b1
      else if bt1 =? PERIODIC
      then for_loop GN 0 (fun i ub0 => q <- rdu ub0 (Z.of_nat i) ;;
             a <- row ubase ustride (nx + 2 * GN) (Z.of_nat (i + nx + GN)) ;; wr ub0 a q) b1
      else if bt1 <=? SYMMETRIC
      then for_loop GN 0 (fun i ub0 => q <- rdu ub0 (Z.of_nat nx - 1 - Z.of_nat i)%Z ;;
             a <- row ubase ustride (nx + 2 * GN) (Z.of_nat (i + nx + GN)) ;; wr ub0 a (wallf bt1 d q)) b1
      else Ok b1) = Ok b' /\ blen b' = blen ub /\
      (forall i, i < GN -> bdat b' (ubase + ustride * (i + nx + GN)) =
         Some (extend1 bt0 bt1 d (Z.of_nat nx) f (Z.of_nat (i + nx + GN) - Z.of_nat GN)%Z)) /\
      (forall a, (forall i, i < GN -> a <> ubase + ustride * (i + nx + GN)) -> bdat b' a = bdat b1 a)).
  { assert (X : forall i, extend1 bt0 bt1 d (Z.of_nat nx) f (Z.of_nat (i + nx + GN) - Z.of_nat GN)%Z =
       ghost cell wallf bt1 d (Z.of_nat nx) f (Z.of_nat (i + nx)) (Z.of_nat nx - 1) (Z.of_nat nx - 1 - Z.of_nat i)).
    { intros i. unfold GridSpec.extend1.
      destruct (Z.ltb_spec (Z.of_nat (i + nx + GN) - Z.of_nat GN) 0); [lia|].
      destruct (Z.ltb_spec (Z.of_nat (i + nx + GN) - Z.of_nat GN) (Z.of_nat nx)); [lia|]. f_equal; lia. }
    destruct (Nat.eqb_spec bt1 TRANSMISSIVE) as [E0|E0]; [|destruct (Nat.eqb_spec bt1 PERIODIC) as [E1|E1];
      [|destruct (Nat.leb_spec bt1 SYMMETRIC) as [E2|E2]; [|unfold SYMMETRIC in E2; lia]]].
    - destruct (Copy (fun _ => (Z.of_nat nx - 1)%Z) (fun i => i + nx + GN) (fun q => q) b1) as [b' [E [L [W K]]]]; auto; try (intros; lia).
      exists b'. split; [exact E|]. split; [exact L|]. split; [|exact K]. intros i Hi. rewrite (W i Hi), X, E0. reflexivity.
    - destruct (Copy (fun i => Z.of_nat i) (fun i => i + nx + GN) (fun q => q) b1) as [b' [E [L [W K]]]]; auto; try (intros; lia).
      exists b'. split; [exact E|]. split; [exact L|]. split; [|exact K]. intros i Hi. rewrite (W i Hi), X, E1. unfold PERIODIC. cbn [ghost].
      f_equal. f_equal. apply (Z.mod_unique (Z.of_nat (i + nx)) (Z.of_nat nx) 1 (Z.of_nat i)); lia.
    - destruct (Copy (fun i => (Z.of_nat nx - 1 - Z.of_nat i)%Z) (fun i => i + nx + GN) (wallf bt1 d) b1) as [b' [E [L [W K]]]]; auto; try (intros; lia).
      exists b'. split; [exact E|]. split; [exact L|]. split; [|exact K]. intros i Hi. rewrite (W i Hi), X. unfold ghost.
      unfold TRANSMISSIVE, PERIODIC in *. destruct bt1 as [|[|bt1]]; try lia. reflexivity. }
  destruct Right as [b2 [Er [L2 [W2 K2]]]]. exists b2. split; [exact Er|]. split; [exact L2|]. split.
  - intros k [Hk|Hk].
    + rewrite K2; [apply W1; exact Hk|]. intros i Hi E. apply Inj in E. lia.
    + replace k with ((k - nx - GN) + nx + GN) by lia. apply W2. lia.
  - intros a Ha. rewrite K2; [apply Kb1; exact Ha|]. intros i Hi. apply Ha. lia.
Qed.

(** 1-D *)
Theorem boundaries_1d u ub nx bt f :
  GN <= nx -> 0 < nx -> (forall k, k < 2 -> bt k <= 5) ->
  blen u = nx -> (forall i, i < nx -> bdat u i = Some (f i)) ->
  blen ub = extended_dimensions [nx] GN ->
  exists ub', boundaries u ub [nx] bt = Ok ub' /\ blen ub' = nx + 2 * GN /\
    forall i, i < nx + 2 * GN ->
      bdat ub' i = Some (extend1 (bt 0) (bt 1) 0 (Z.of_nat nx) (fun x => f (Z.to_nat x)) (Z.of_nat i - Z.of_nat GN)%Z).
Proof.
  intros HN Hnx Hbt Lu Du Lub. cbn in Lub. rewrite Nat.mul_1_r in Lub. unfold GridModel.boundaries.
  destruct (fill_loop nx (fun i => GN + i) f (fun i ub => q <- rd u i ;; wr ub (GN + i) q) ub) as [b1 [E1 [L1 [W1 K1]]]].
  - intros i b' Hi _ _. rewrite (rd_ok u i (f i)); [reflexivity|lia|apply Du; exact Hi].
  - intros i Hi. lia.
  - intros; lia.
  - rewrite E1. cbn [bind].
    destruct (b1_ok (fun _ r => rdrow cell u 0 1 nx r) 0 1 nx (bt 0) (bt 1) 0 b1 (fun x => f (Z.to_nat x))) as [b2 [E2 [L2 [W2 K2]]]]; auto.
    + intros k Hk. lia.
    + intros b' r _ _ Hr. unfold rdrow. rewrite row_ok by lia. cbn [bind]. apply rd_ok; [lia|].
      rewrite Du by lia. f_equal. f_equal. lia.
    + exists b2. split; [exact E2|]. split; [lia|]. intros i Hi.
      destruct (le_lt_dec GN i) as [A|A]; [destruct (le_lt_dec (nx + GN) i) as [B|B]|].
      * specialize (W2 i ltac:(lia)). replace (0 + 1 * i) with i in W2 by lia. exact W2.
      * rewrite K2 by (intros; lia). replace i with (GN + (i - GN)) at 1 by lia. rewrite W1 by lia.
        f_equal. unfold GridSpec.extend1.
        destruct (Z.ltb_spec (Z.of_nat i - Z.of_nat GN) 0); [lia|].
        destruct (Z.ltb_spec (Z.of_nat i - Z.of_nat GN) (Z.of_nat nx)); [|lia]. f_equal. lia.
      * specialize (W2 i ltac:(lia)). replace (0 + 1 * i) with i in W2 by lia. exact W2.
Qed.

Lemma addr_inj W i j i' j' : j < W -> j' < W -> i * W + j = i' * W + j' -> i = i' /\ j = j'.
Proof. intros A B E. assert (i = i') by nia. subst. split; [reflexivity|lia]. Qed.

(** 2-D *)
Theorem boundaries_2d u ub nx ny bt f :
  GN <= nx -> 0 < nx -> GN <= ny -> 0 < ny -> (forall k, k < 4 -> bt k <= 5) ->
  blen u = nx * ny -> (forall i j, i < nx -> j < ny -> bdat u (i * ny + j) = Some (f i j)) ->
  blen ub = extended_dimensions [nx; ny] GN ->
  exists ub', boundaries u ub [nx; ny] bt = Ok ub' /\ blen ub' = (nx + 2 * GN) * (ny + 2 * GN) /\
    forall i j, i < nx + 2 * GN -> j < ny + 2 * GN ->
      bdat ub' (i * (ny + 2 * GN) + j) =
      Some (extend2 bt (Z.of_nat nx) (Z.of_nat ny) (fun x y => f (Z.to_nat x) (Z.to_nat y))
             (Z.of_nat i - Z.of_nat GN)%Z (Z.of_nat j - Z.of_nat GN)%Z).
Proof.
  intros HNx Hnx HNy Hny Hbt Lu Du Lub.
  assert (Lub' : blen ub = (nx + 2 * GN) * (ny + 2 * GN)) by (rewrite Lub; unfold extended_dimensions; cbn [map fold_right]; ring).
  clear Lub. unfold GridModel.boundaries, GridModel.boundaries2. cbv zeta. set (W := ny + 2 * GN) in *.
  assert (AddrLt : forall i j, i < nx + 2 * GN -> j < W -> i * W + j < (nx + 2 * GN) * W) by (intros; nia).
  (* interior copy *)
  destruct (block_loop nx (fun i a => exists j, j < ny /\ a = (i + GN) * W + GN + j)
     (fun a => f (a / W - GN) (a mod W - GN))
     (fun i ub => for_loop ny 0 (fun j ub => q <- rd u (i * ny + j) ;; wr ub ((i + GN) * W + GN + j) q) ub) ub)
    as [b1 [E1 [L1 [W1 K1]]]].
  - intros i b' Hi Lb _.
    destruct (fill_loop ny (fun j => (i + GN) * W + GN + j) (fun j => f i j)
      (fun j ub => q <- rd u (i * ny + j) ;; wr ub ((i + GN) * W + GN + j) q) b') as [b'' [E [L [Wr Kp]]]].
    + intros j b0 Hj _ _. rewrite (rd_ok u (i * ny + j) (f i j)); [reflexivity| |apply Du; assumption]. nia.
    + intros j Hj. rewrite Lb, Lub'. rewrite <- Nat.add_assoc. apply AddrLt; unfold W; lia.
    + intros; lia.
    + exists b''. split; [exact E|]. split; [lia|]. split.
      * intros a [j [Hj ->]]. rewrite Wr by exact Hj. f_equal.
        replace ((i + GN) * W + GN + j) with ((GN + j) + (i + GN) * W) by lia.
        rewrite Nat.div_add, Nat.mod_add by (unfold W; lia). rewrite Nat.div_small, Nat.mod_small by (unfold W; lia).
        f_equal; lia.
      * intros a Ha. apply Kp. intros j Hj ->. apply Ha. exists j. auto.
  - intros k a. destruct (le_lt_dec ((k + GN) * W + GN) a) as [A|A].
    + destruct (le_lt_dec ((k + GN) * W + GN + ny) a) as [B|B].
      * right. intros [j [Hj ->]]. lia.
      * left. exists (a - ((k + GN) * W + GN)). lia.
    + right. intros [j [Hj ->]]. lia.
  - intros i j a Hi Hj [x [Hx ->]] [y [Hy E]].
    assert (i + GN = j + GN /\ GN + x = GN + y) by (apply (addr_inj W); unfold W; lia). lia.
  - rewrite E1. cbn [bind].
    assert (Int : forall i j, i < nx -> j < ny -> bdat b1 ((i + GN) * W + (GN + j)) = Some (f i j)).
    { intros i j Hi Hj. rewrite (W1 i) by (exact Hi || (exists j; split; [exact Hj|lia])). f_equal.
      replace ((i + GN) * W + (GN + j)) with ((GN + j) + (i + GN) * W) by lia.
      rewrite Nat.div_add, Nat.mod_add by (unfold W; lia). rewrite Nat.div_small, Nat.mod_small by (unfold W; lia).
      f_equal; lia. }
    clear W1 K1.
    (* x pass *)
    pose (X := fun i j => extend1 (bt 0) (bt 1) 0 (Z.of_nat nx) (fun x => f (Z.to_nat x) j) (Z.of_nat i - Z.of_nat GN)%Z).
    destruct (block_loop ny (fun j a => exists k, (k < GN \/ nx + GN <= k < nx + 2 * GN) /\ a = k * W + (GN + j))
       (fun a => X (a / W) (a mod W - GN))
       (fun j ub => boundaries1 (fun _ r => rdrow cell u j ny nx r) (j + GN) W nx (bt 0) (bt 1) 0 ub) b1)
      as [b2 [E2 [L2 [W2 K2]]]].
    + intros j b' Hj Lb _.
      destruct (b1_ok (fun _ r => rdrow cell u j ny nx r) (j + GN) W nx (bt 0) (bt 1) 0 b' (fun x => f (Z.to_nat x) j))
        as [b'' [E [L [Wr Kp]]]]; [exact HNx|exact Hnx|apply Hbt; lia|apply Hbt; lia|unfold W; lia| | |].
      * intros k Hk. rewrite Lb, L1, Lub'. replace (j + GN + W * k) with (k * W + (j + GN)) by lia.
        apply AddrLt; [exact Hk|unfold W; lia].
      * intros b0 r _ _ Hr. unfold rdrow. rewrite row_ok by lia. cbn [bind].
        replace (j + ny * Z.to_nat r) with (Z.to_nat r * ny + j) by lia.
        apply rd_ok; [|apply Du; lia]. assert (Z.to_nat r < nx) by lia. nia.
      * exists b''. split; [exact E|]. split; [lia|]. split.
        -- intros a [k [Hk ->]]. replace (k * W + (GN + j)) with (j + GN + W * k) at 1 by lia. rewrite Wr by exact Hk.
           unfold X. replace (k * W + (GN + j)) with ((GN + j) + k * W) by lia.
           rewrite Nat.div_add, Nat.mod_add by (unfold W; lia). rewrite Nat.div_small, Nat.mod_small by (unfold W; lia).
           do 2 f_equal. replace (GN + j - GN) with j by lia. reflexivity.
        -- intros a Ha. apply Kp. intros k Hk ->. apply Ha. exists k. split; [exact Hk|lia].
    + intros j a. destruct (Nat.eq_dec (a mod W) (GN + j)) as [A|A].
      * destruct (le_lt_dec GN (a / W)) as [B|B]; [destruct (le_lt_dec (nx + GN) (a / W)) as [C|C];
          [destruct (le_lt_dec (nx + 2 * GN) (a / W)) as [D|D]|]|].
        -- right. intros [k [Hk ->]]. rewrite Nat.div_add_l in * by (unfold W; lia).
           assert (0 <= (GN + j) / W) by lia. destruct (lt_dec (GN + j) W) as [Hlt|Hlt]; [rewrite Nat.div_small in * by exact Hlt; lia|].
           rewrite Nat.add_comm, Nat.mod_add in A by (unfold W; lia).
           pose proof (Nat.mod_upper_bound (GN + j) W ltac:(unfold W; lia)). lia.
        -- left. exists (a / W). split; [lia|]. rewrite (Nat.div_mod_eq a W) at 1. lia.
        -- right. intros [k [Hk E]]. destruct (lt_dec (GN + j) W) as [Hlt|Hlt].
           ++ subst a. rewrite Nat.div_add_l, Nat.div_small in * by (unfold W in *; lia). lia.
           ++ pose proof (Nat.mod_upper_bound a W ltac:(unfold W; lia)). lia.
        -- left. exists (a / W). split; [lia|]. rewrite (Nat.div_mod_eq a W) at 1. lia.
      * destruct (lt_dec j ny) as [Hj|Hj].
        -- right. intros [k [Hk ->]]. apply A. rewrite Nat.add_comm, Nat.mod_add by (unfold W; lia). apply Nat.mod_small. unfold W; lia.
        -- (* unreachable columns: decide by search over k *)
           assert (Dec : forall m, (exists k, k < m /\ (k < GN \/ nx + GN <= k < nx + 2 * GN) /\ a = k * W + (GN + j)) \/
                              ~ (exists k, k < m /\ (k < GN \/ nx + GN <= k < nx + 2 * GN) /\ a = k * W + (GN + j))).
           { induction m as [|m [IH|IH]].
             - right. intros [k [Hk _]]. lia.
             - left. destruct IH as [k [Hk R]]. exists k. split; [lia|exact R].
             - destruct (Nat.eq_dec a (m * W + (GN + j))) as [Ea|Ea].
               + destruct (le_lt_dec GN m); [destruct (le_lt_dec (nx + GN) m); [destruct (le_lt_dec (nx + 2 * GN) m)|]|].
                 * right. intros [k [Hk [R E]]]. assert (k <> m) by lia. apply IH. exists k. split; [lia|auto].
                 * left. exists m. split; [lia|]. split; [lia|exact Ea].
                 * right. intros [k [Hk [R E]]]. assert (k <> m) by lia. apply IH. exists k. split; [lia|auto].
                 * left. exists m. split; [lia|]. split; [lia|exact Ea].
               + right. intros [k [Hk [R E]]]. assert (k <> m) by congruence. apply IH. exists k. split; [lia|auto]. }
           destruct (Dec (nx + 2 * GN)) as [[k [_ R]]|R]; [left; exists k; exact R|right].
           intros [k [Hk E]]. apply R. exists k. split; [lia|auto].
    + intros i j a Hi Hj [x [Hx ->]] [y [Hy E]].
      assert (x = y /\ GN + i = GN + j) by (apply (addr_inj W); unfold W; lia). lia.
    + rewrite E2. cbn [bind].
      assert (Mid : forall i j, i < nx + 2 * GN -> j < ny -> bdat b2 (i * W + (GN + j)) = Some (X i j)).
      { intros i j Hi Hj. destruct (le_lt_dec GN i) as [A|A]; [destruct (le_lt_dec (nx + GN) i) as [B|B]|].
        - rewrite (W2 j) by (exact Hj || (exists i; split; [lia|reflexivity])). f_equal.
          replace (i * W + (GN + j)) with ((GN + j) + i * W) by lia.
          rewrite Nat.div_add, Nat.mod_add by (unfold W; lia). rewrite Nat.div_small, Nat.mod_small by (unfold W; lia).
          f_equal; lia.
        - rewrite K2.
          + replace (i * W) with ((i - GN + GN) * W) by (f_equal; lia). rewrite Int by lia. f_equal.
            unfold X, GridSpec.extend1. destruct (Z.ltb_spec (Z.of_nat i - Z.of_nat GN) 0); [lia|].
            destruct (Z.ltb_spec (Z.of_nat i - Z.of_nat GN) (Z.of_nat nx)); [|lia]. f_equal. lia.
          + intros j' Hj' [k [Hk E]]. assert (i = k /\ GN + j = GN + j') by (apply (addr_inj W); unfold W; lia). lia.
        - rewrite (W2 j) by (exact Hj || (exists i; split; [lia|reflexivity])). f_equal.
          replace (i * W + (GN + j)) with ((GN + j) + i * W) by lia.
          rewrite Nat.div_add, Nat.mod_add by (unfold W; lia). rewrite Nat.div_small, Nat.mod_small by (unfold W; lia).
          f_equal; lia. }
      (* y pass *)
      destruct (block_loop (nx + 2 * GN) (fun i a => exists k, (k < GN \/ ny + GN <= k < ny + 2 * GN) /\ a = i * W + k)
         (fun a => extend1 (bt 2) (bt 3) 1 (Z.of_nat ny) (fun y => X (a / W) (Z.to_nat y)) (Z.of_nat (a mod W) - Z.of_nat GN)%Z)
         (fun i ub => boundaries1 (fun ub r => rdrow cell ub (i * W + GN) 1 ny r) (i * W) 1 ny (bt 2) (bt 3) 1 ub) b2)
        as [b3 [E3 [L3 [W3 K3]]]].
      * intros i b' Hi Lb Kb.
        destruct (b1_ok (fun ub r => rdrow cell ub (i * W + GN) 1 ny r) (i * W) 1 ny (bt 2) (bt 3) 1 b' (fun y => X i (Z.to_nat y)))
          as [b'' [E [L [Wr Kp]]]]; [exact HNy|exact Hny|apply Hbt; lia|apply Hbt; lia|lia| | |].
        -- intros k Hk. rewrite Lb, L2, L1, Lub'. rewrite Nat.mul_1_l. apply AddrLt; [exact Hi|unfold W; lia].
        -- intros b0 r Lb0 Kb0 Hr. unfold rdrow. rewrite row_ok by lia. cbn [bind]. rewrite Nat.mul_1_l.
           apply rd_ok.
           ++ rewrite Lb0, Lb, L2, L1, Lub'. rewrite <- Nat.add_assoc. apply AddrLt; [exact Hi|unfold W; lia].
           ++ rewrite Kb0 by (intros k Hk; lia). rewrite Kb.
              ** rewrite <- Nat.add_assoc. apply Mid; lia.
              ** intros k Hk [x [Hx Ea]]. assert (i = k /\ GN + Z.to_nat r = x) by (apply (addr_inj W); unfold W; lia). lia.
        -- exists b''. split; [exact E|]. split; [lia|]. split.
           ++ intros a [k [Hk ->]]. specialize (Wr k Hk). rewrite Nat.mul_1_l in Wr. rewrite Wr.
              replace (i * W + k) with (k + i * W) by lia.
              rewrite Nat.div_add, Nat.mod_add by (unfold W; lia). rewrite Nat.div_small, Nat.mod_small by (unfold W; lia).
              reflexivity.
           ++ intros a Ha. apply Kp. intros k Hk ->. apply Ha. exists k. split; [exact Hk|lia].
      * intros i a. destruct (le_lt_dec (i * W) a) as [A|A].
        -- destruct (le_lt_dec (i * W + GN) a) as [B|B]; [destruct (le_lt_dec (i * W + ny + GN) a) as [C|C];
             [destruct (le_lt_dec (i * W + W) a) as [D|D]|]|].
           ++ right. intros [k [Hk ->]]. unfold W in *. lia.
           ++ left. exists (a - i * W). unfold W in *. lia.
           ++ right. intros [k [Hk ->]]. lia.
           ++ left. exists (a - i * W). lia.
        -- right. intros [k [Hk ->]]. lia.
      * intros i j a Hi Hj [x [Hx ->]] [y [Hy E]].
        assert (i = j /\ x = y) by (apply (addr_inj W); unfold W; lia). lia.
      * exists b3. split; [exact E3|]. split; [lia|]. intros i j Hi Hj. fold W. unfold GridSpec.extend2. fold W in Hj.
        destruct (le_lt_dec GN j) as [A|A]; [destruct (le_lt_dec (ny + GN) j) as [B|B]|].
        -- rewrite (W3 i) by (exact Hi || (exists j; split; [unfold W in *; lia|reflexivity])).
           replace (i * W + j) with (j + i * W) by lia.
           rewrite Nat.div_add, Nat.mod_add by (unfold W; lia). rewrite Nat.div_small, Nat.mod_small by (unfold W in *; lia).
           reflexivity.
        -- rewrite K3.
           ++ replace j with (GN + (j - GN)) at 1 by lia. rewrite Mid by lia.
              f_equal. unfold X. unfold GridSpec.extend1 at 2. destruct (Z.ltb_spec (Z.of_nat j - Z.of_nat GN) 0); [lia|].
              destruct (Z.ltb_spec (Z.of_nat j - Z.of_nat GN) (Z.of_nat ny)); [|lia].
              replace (Z.to_nat (Z.of_nat j - Z.of_nat GN)) with (j - GN) by lia. reflexivity.
           ++ intros i' Hi' [k [Hk E]]. assert (i = i' /\ j = k) by (apply (addr_inj W); unfold W in *; lia). lia.
        -- rewrite (W3 i) by (exact Hi || (exists j; split; [unfold W in *; lia|reflexivity])).
           replace (i * W + j) with (j + i * W) by lia.
           rewrite Nat.div_add, Nat.mod_add by (unfold W; lia). rewrite Nat.div_small, Nat.mod_small by (unfold W in *; lia).
           reflexivity.
Qed.
End G.
