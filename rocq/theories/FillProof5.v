(** Probes against the grid, and the filling of the boundary cells. *)
From Coq Require Import Reals ZArith Lra Permutation FunctionalExtensionality.
From Verif Require Import Base Options Mat3 PhysModel FmmModel LevelSetModel UtilsModel UtilsProof FillModel FmmSpec FmmProof6 FillSpec FillProof FillProof2 FillProof3 FillProof4.
Import List ListNotations.
Open Scope nat_scope.

(** ** normals *)
Lemma norm2_nonneg k nd g : (0 <= fold_right (fun d s => g d * g d + s)%R 0%R (seq k nd))%R.
Proof. revert k. induction nd as [|nd IH]; intros k; cbn; [lra|]. specialize (IH (S k)). nra. Qed.
Lemma norm2_ge nd g d : d < nd -> (g d * g d <= norm2 nd g)%R.
Proof.
  unfold norm2. intros H. assert (X : forall k m, k <= d < k + m -> (g d * g d <= fold_right (fun d s => g d * g d + s)%R 0%R (seq k m))%R).
  { intros k m. revert k. induction m as [|m IH]; intros k Hk; [lia|]. cbn [seq fold_right]. destruct (Nat.eq_dec k d) as [->|N].
    - pose proof (norm2_nonneg (S d) m g). lra.
    - specialize (IH (S k) ltac:(lia)). nra. }
  apply X. lia.
Qed.
Lemma normal_some nd g nrm : normal nd g = Some nrm -> (0 < length_of nd g)%R /\ forall d, nrm d = (g d / length_of nd g)%R.
Proof.
  unfold normal, length_of. fold (norm2 nd g). destruct (Req_EM_T (norm2 nd g) 0) as [Z|Z]; [discriminate|]. intros [= <-].
  split; [|reflexivity]. apply sqrt_lt_R0. pose proof (norm2_nonneg 0 nd g). unfold norm2 in *. lra.
Qed.
Lemma normal_ex nd g : (0 < length_of nd g)%R -> exists nrm, normal nd g = Some nrm.
Proof.
  unfold normal, length_of. fold (norm2 nd g). intros H. destruct (Req_EM_T (norm2 nd g) 0) as [Z|Z]; [|eauto].
  rewrite Z, sqrt_0 in H. lra.
Qed.
Lemma normal_none nd g : length_of nd g = 0%R -> normal nd g = None.
Proof.
  unfold normal, length_of. fold (norm2 nd g). intros H. destruct (Req_EM_T (norm2 nd g) 0) as [Z|Z]; [reflexivity|].
  apply sqrt_eq_0 in H; [contradiction|]. apply norm2_nonneg.
Qed.
Lemma normal_bound nd g nrm d : normal nd g = Some nrm -> d < nd -> (-1 <= nrm d <= 1)%R.
Proof.
  intros E Hd. destruct (normal_some _ _ _ E) as [L ->].
  assert (A : (Rabs (g d) <= length_of nd g)%R).
  { unfold length_of. rewrite <- sqrt_Rsqr_abs. apply sqrt_le_1_alt. unfold Rsqr. apply norm2_ge. exact Hd. }
  assert (B : (- length_of nd g <= g d <= length_of nd g)%R) by (revert A; unfold Rabs; destruct (Rcase_abs (g d)); intros; lra).
  split.
  - apply Rmult_le_reg_r with (length_of nd g); [exact L|]. unfold Rdiv. rewrite Rmult_assoc, Rinv_l by lra. lra.
  - apply Rmult_le_reg_r with (length_of nd g); [exact L|]. unfold Rdiv. rewrite Rmult_assoc, Rinv_l by lra. lra.
Qed.
Lemma normal_unit nd g nrm : normal nd g = Some nrm -> norm2 nd nrm = 1%R.
Proof.
  unfold normal. destruct (Req_EM_T (norm2 nd g) 0) as [Z|Z]; [discriminate|]. intros [= <-].
  assert (P : (0 < norm2 nd g)%R) by (pose proof (norm2_nonneg 0 nd g); unfold norm2 in *; lra).
  assert (X : forall s, (0 < s)%R -> forall k m, fold_right (fun d r => g d / s * (g d / s) + r)%R 0%R (seq k m) =
    (fold_right (fun d r => g d * g d + r)%R 0%R (seq k m) / (s * s))%R).
  { intros s Hs k m. revert k. induction m as [|m IH]; intros k; cbn; [unfold Rdiv; ring|]. rewrite IH. field. lra. }
  unfold norm2 at 1. rewrite X by (apply sqrt_lt_R0; exact P). rewrite sqrt_sqrt by lra. fold (norm2 nd g). field. lra.
Qed.

(** ** coordinates *)
Lemma coords_flat nX C d : dim12 nX -> inside nX C -> d < List.length nX -> coords nX (flat nX C) d = nth d C 0.
Proof.
  intros [D|D] HC Hd.
  - destruct nX as [|nx [|? ?]]; try discriminate D. destruct (inside1 _ _ HC) as [x [-> Hx]]. cbn in *. destruct d; [lia|lia].
  - destruct nX as [|nx [|ny [|? ?]]]; try discriminate D. destruct (inside2 _ _ _ HC) as [i [j [-> [Hi Hj]]]].
    unfold coords. replace (flat [nx; ny] [i; j]) with (i * ny + j) by (cbn; lia). destruct (divmod ny i j Hj) as [-> ->].
    destruct d as [|[|d]]; cbn in *; try reflexivity. lia.
Qed.
Lemma lin_range nX v : dim12 nX -> (forall d, d < List.length nX -> (0 <= v d < Z.of_nat (nth d nX 0%nat))%Z) ->
  (0 <= lin nX v < Z.of_nat (size_ nX))%Z.
Proof.
  intros [D|D] H.
  - destruct nX as [|nx [|? ?]]; try discriminate D. specialize (H 0 ltac:(cbn; lia)). cbn in *. lia.
  - destruct nX as [|nx [|ny [|? ?]]]; try discriminate D. pose proof (H 0 ltac:(cbn; lia)) as H0. pose proof (H 1 ltac:(cbn; lia)) as H1.
    cbn [nth lin] in *. replace (size_ [nx; ny]) with (nx * ny) by (cbn; lia). split; [nia|].
    assert ((v 0%nat + 1) * Z.of_nat ny <= Z.of_nat nx * Z.of_nat ny)%Z by (apply Z.mul_le_mono_nonneg_r; lia). lia.
Qed.

Section Probe.
Variables (dX : nat -> R) (nX : list nat) (C : list nat).
Hypothesis D12 : dim12 nX.
Hypothesis HdX : forall d, d < List.length nX -> (0 < dX d)%R.
Hypothesis HC : inside nX C.
Notation c := (flat nX C).
Lemma C_lt d : d < List.length nX -> nth d C 0 < nth d nX 0.
Proof.
  intros Hd. destruct D12 as [D|D].
  - destruct nX as [|nx [|? ?]]; try discriminate D. destruct (inside1 _ _ HC) as [x [-> Hx]]. destruct d; cbn in *; lia.
  - destruct nX as [|nx [|ny [|? ?]]]; try discriminate D. destruct (inside2 _ _ _ HC) as [i [j [-> [Hi Hj]]]]. destruct d as [|[|d]]; cbn in *; lia.
Qed.
Lemma back_arg nrm d : d < List.length nX ->
  (((INR (coords nX c d) + / 2) * dX d - dX d * nrm d) / dX d)%R = (INR (nth d C 0%nat) + / 2 - nrm d)%R.
Proof. intros Hd. rewrite coords_flat by assumption. specialize (HdX d Hd). field. lra. Qed.
Lemma back_range g nrm : normal (List.length nX) g = Some nrm ->
  (forall d, d < List.length nX -> nth d C 0 + 1 = nth d nX 0 -> (- (length_of (List.length nX) g / 2) < g d)%R) ->
  (0 <= back dX nX c nrm < Z.of_nat (size_ nX))%Z.
Proof.
  intros En He. unfold back. apply lin_range; [exact D12|]. intros d Hd. rewrite back_arg by exact Hd.
  pose proof (normal_bound _ _ _ d En Hd) as B. pose proof (C_lt d Hd) as L. pose proof (pos_INR (nth d C 0)) as P0.
  apply trunc_range; [lia|lra|]. destruct (Nat.eq_dec (nth d C 0 + 1) (nth d nX 0)) as [Q|Q].
  - specialize (He d Hd Q). destruct (normal_some _ _ _ En) as [Lp Hn]. rewrite Hn, <- Q, plus_INR. cbn [INR].
    assert (- (1/2) < g d / length_of (List.length nX) g)%R; [|lra].
    apply Rmult_lt_reg_r with (length_of (List.length nX) g); [exact Lp|]. unfold Rdiv. rewrite (Rmult_assoc (g d)), Rinv_l by lra. lra.
  - assert (L2 : nth d C 0 + 2 <= nth d nX 0) by lia. apply le_INR in L2. rewrite plus_INR in L2. cbn [INR] in L2. lra.
Qed.
Lemma back_above nrm d : d < List.length nX -> (-1 <= nrm d <= 1)%R ->
  let y := trunc (((INR (coords nX c d) + / 2) * dX d - dX d * nrm d) / dX d)%R in
  (Z.of_nat (nth d C 0%nat) - 1 <= y <= Z.of_nat (nth d C 0%nat) + 1)%Z /\
  ((nrm d <= -1/2)%R -> y = (Z.of_nat (nth d C 0%nat) + 1)%Z) /\
  ((1/2 < nrm d)%R -> 1 <= nth d C 0 -> y = (Z.of_nat (nth d C 0%nat) - 1)%Z).
Proof.
  intros Hd B y. unfold y. rewrite back_arg by exact Hd. set (x := nth d C 0). pose proof (pos_INR x) as P0.
  assert (T : forall z k, (INR k <= z < INR k + 1)%R -> trunc z = Z.of_nat k).
  { intros z k [H1 H2]. pose proof (pos_INR k). unfold trunc. destruct (Rle_dec 0 z); [|lra]. destruct (base_Int_part z) as [I1 I2].
    rewrite INR_IZR_INZ in *. assert (IZR (Int_part z) < IZR (Z.of_nat k + 1))%R by (rewrite plus_IZR; lra).
    assert (IZR (Z.of_nat k - 1) < IZR (Int_part z))%R by (rewrite minus_IZR; lra). apply lt_IZR in H0, H3. lia. }
  assert (U : (nrm d <= -1/2)%R -> trunc (INR x + / 2 - nrm d) = (Z.of_nat x + 1)%Z).
  { intros Q. rewrite (T _ (x + 1)); [lia|]. rewrite plus_INR. cbn [INR]. lra. }
  assert (L : (1/2 < nrm d)%R -> 1 <= x -> trunc (INR x + / 2 - nrm d) = (Z.of_nat x - 1)%Z).
  { intros Q Q2. rewrite (T _ (x - 1)); [lia|]. rewrite minus_INR by exact Q2. cbn [INR]. lra. }
  split; [|split; assumption].
  destruct (Rle_dec (nrm d) (-1/2)) as [Q|Q]; [rewrite U by exact Q; lia|].
  destruct (Rlt_dec (1/2) (nrm d)) as [Q2|Q2].
  - destruct (le_lt_dec 1 x) as [Q3|Q3]; [rewrite L by assumption; lia|]. assert (x = 0) by lia.
    rewrite H. cbn [INR]. unfold trunc. destruct (Rle_dec 0 (0 + / 2 - nrm d)) as [Q4|Q4]; [lra|].
    destruct (base_Int_part (- (0 + / 2 - nrm d))) as [I1 I2].
    assert (IZR (-1) < IZR (Int_part (- (0 + / 2 - nrm d))))%R by (change (IZR (-1)) with (-1)%R; lra).
    assert (IZR (Int_part (- (0 + / 2 - nrm d))) < IZR 1)%R by (change (IZR 1) with 1%R; lra). apply lt_IZR in H0, H1. lia.
  - rewrite (T _ x); [lia|lra].
Qed.
Lemma stuck_edge (dphi : nat -> nat -> R) : (List.length nX = 2 -> 2 <= nth 1 nX 0) -> stuck dX nX dphi c ->
  exists d, d < List.length nX /\ nth d C 0 = 0 /\ (length_of (List.length nX) (dphi c) / 2 < dphi c d)%R.
Proof.
  intros H2 [nrm [En Eb]].
  assert (K : exists d, d < List.length nX /\ nth d C 0 = 0 /\ (1 / 2 < nrm d)%R).
  { pose proof (normal_unit _ _ _ En) as U. unfold back in Eb. destruct D12 as [D|D].
    - destruct nX as [|nx [|? ?]] eqn:EX; try discriminate D. rewrite <- EX in *.
      assert (L1 : List.length nX = 1) by (rewrite EX; reflexivity).
      pose proof (back_above nrm 0 ltac:(lia) (normal_bound _ _ _ 0 En ltac:(lia))) as [_ [A1 A2]].
      destruct (inside1 nx C) as [x [EC Hx]]; [rewrite <- EX; exact HC|].
      assert (Ec : flat nX C = nth 0 C 0) by (rewrite EX, EC; cbn; lia).
      rewrite EX in Eb. cbn [lin] in Eb. rewrite <- EX in Eb. exists 0. split; [lia|].
      rewrite L1 in U. unfold norm2 in U. cbn in U.
      destruct (Rle_dec (nrm 0) (-1/2)) as [Q|Q]; [specialize (A1 Q); rewrite Ec in *; lia|].
      assert (Q2 : (1/2 < nrm 0%nat)%R) by nra.
      split; [|exact Q2]. destruct (le_lt_dec 1 (nth 0 C 0)) as [Q3|Q3]; [specialize (A2 Q2 Q3); rewrite Ec in *; lia|lia].
    - destruct nX as [|nx [|ny [|? ?]]] eqn:EX; try discriminate D. rewrite <- EX in *.
      assert (L1 : List.length nX = 2) by (rewrite EX; reflexivity).
      pose proof (back_above nrm 0 ltac:(lia) (normal_bound _ _ _ 0 En ltac:(lia))) as [A0 [A1 A2]].
      pose proof (back_above nrm 1 ltac:(lia) (normal_bound _ _ _ 1 En ltac:(lia))) as [B0 [B1 B2]].
      destruct (inside2 nx ny C) as [i [j [EC [Hi Hj]]]]; [rewrite <- EX; exact HC|].
      assert (Ec : Z.of_nat (flat nX C) = (Z.of_nat (nth 0%nat C 0%nat) * Z.of_nat ny + Z.of_nat (nth 1%nat C 0%nat))%Z) by (rewrite EX, EC; cbn [flat nth cells]; lia).
      assert (Hny : 2 <= ny) by (specialize (H2 L1); rewrite EX in H2; exact H2).
      rewrite EX in Eb. cbn [lin] in Eb. rewrite <- EX in Eb. rewrite Ec in Eb.
      set (y0 := trunc _) in * |-. 
      match type of Eb with (?a * _ + ?b = _)%Z => set (z0 := a) in *; set (z1 := b) in * end.
      assert (E0 : z0 = Z.of_nat (nth 0 C 0)) by nia. assert (E1 : z1 = Z.of_nat (nth 1 C 0)) by nia.
      rewrite L1 in U. unfold norm2 in U. cbn in U.
      destruct (Rle_dec (nrm 0) (-1/2)) as [Q|Q]; [specialize (A1 Q); lia|].
      destruct (Rle_dec (nrm 1) (-1/2)) as [Q'|Q']; [specialize (B1 Q'); lia|].
      destruct (Rlt_dec (1/2) (nrm 0)) as [Q2|Q2].
      + exists 0. split; [lia|]. split; [|exact Q2].
        destruct (le_lt_dec 1 (nth 0 C 0)) as [Q3|Q3]; [specialize (A2 Q2 Q3); lia|lia].
      + assert (Q2' : (1/2 < nrm 1%nat)%R) by nra. exists 1. split; [lia|]. split; [|exact Q2'].
        destruct (le_lt_dec 1 (nth 1 C 0)) as [Q3|Q3]; [specialize (B2 Q2' Q3); lia|lia]. }
  destruct K as [d [Hd [Ed Hn]]]. exists d. split; [exact Hd|]. split; [exact Ed|].
  destruct (normal_some _ _ _ En) as [Lp Hnr]. rewrite Hnr in Hn.
  apply Rmult_lt_compat_r with (r := length_of (List.length nX) (dphi c)) in Hn; [|exact Lp].
  unfold Rdiv in Hn. rewrite (Rmult_assoc (dphi c d)), Rinv_l in Hn by lra. lra.
Qed.
End Probe.
