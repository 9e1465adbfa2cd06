(** The matrix form and the matrix-free form of the non-conservative terms agree. *)
From Coq Require Import Reals Lra Lia.
From Verif Require Import Base Options Sum Mat3 EqModel EqSpec EqProof.
Open Scope R_scope.

Section P.
Variable o : options.
Hypothesis VISC : VISCOUS o = true.
Notation bdot := (bdot o).
Let VB0 := V_big o VISC.

Lemma rsum_S n f : rsum (S n) f = rsum n f + f n. Proof. reflexivity. Qed.
Lemma block_row Q d k j : (14 <= k < V o)%nat -> (d < 3)%nat ->
  block o Q d k j = if (Nat.leb (V o - LSET o) k && Nat.eqb k j)%bool then velocity Q d else 0.
Proof.
  intros Hk Hd. unfold block, velocity; cbv zeta. rewrite (proj2 (Nat.ltb_lt k (V o))) by lia. rewrite Bool.andb_true_r.
  destruct (Nat.leb (V o - LSET o) k && Nat.eqb k j)%bool; [reflexivity|]. rewrite VISC.
  assert (A : forall r, (r + d < 14)%nat -> (k =? r + d) = false) by (intros; apply Nat.eqb_neq; lia). rewrite !A by lia. cbn [andb].
  rewrite (proj2 (Nat.ltb_ge k 14)) by lia. rewrite Bool.andb_false_r. reflexivity.
Qed.
Lemma block_bdot Q x d k : (d < 3)%nat -> (k < V o)%nat -> rsum (V o) (fun j => block o Q d k j * x j) = bdot Q x d k.
Proof.
  intros Hd Hk. pose proof VB0 as VB.
  assert (E : exists m, V o = (14 + m)%nat) by (exists (V o - 14)%nat; lia). destruct E as [m Em].
  destruct (Nat.ltb_spec k 14) as [K|K].
  - rewrite Em. rewrite rsum_split. rewrite (rsum_zero m).
    + unfold bdot, block, velocity, B0dot, B1dot, B2dot, level_sets. rewrite VISC.
      assert (L : (Nat.leb (V o - LSET o) k) = false) by (apply Nat.leb_gt; lia).
      destruct d as [|[|[|d]]]; [| | |lia]; rewrite !L; cbn [andb];
      do 14 (destruct k as [|k]; [rewrite !rsum_S; cbn; ring|]); lia.
    + intros j Hj. unfold block. rewrite VISC. cbv zeta.
      assert (L : (Nat.leb (V o - LSET o) k) = false) by (apply Nat.leb_gt; lia). rewrite !L. cbn [andb].
      assert (A : (k =? 14 + j) = false) by (apply Nat.eqb_neq; lia). rewrite A. rewrite !Bool.andb_false_r.
      ring.
  - assert (L : forall w, level_sets o w x k = if Nat.leb (V o - LSET o) k then w * x k else 0).
    { intros w. unfold level_sets. rewrite (proj2 (Nat.ltb_lt k (V o)) Hk), Bool.andb_true_r. reflexivity. }
    assert (R : bdot Q x d k = if Nat.leb (V o - LSET o) k then velocity Q d * x k else 0).
    { unfold bdot, B0dot, B1dot, B2dot. destruct d as [|[|[|d]]]; [| | |lia]; rewrite <- L; do 14 (destruct k as [|k]; [lia|]); reflexivity. }
    rewrite R. rewrite (rsum_single (V o) k).
    + rewrite block_row by lia. rewrite Nat.eqb_refl, Bool.andb_true_r. destruct (Nat.leb _ _); ring.
    + exact Hk.
    + intros j Hj Ne. rewrite block_row by lia. rewrite (proj2 (Nat.eqb_neq k j)) by lia. rewrite Bool.andb_false_r. ring.
Qed.

End P.
