(** Rotations. *)
From Coq Require Import Reals Lra Psatz Lia Nsatz.
From Verif Require Import Base Options Sum Mat3 PhysModel PhysInst PhysSpec PhysProof2 RiemannModel.
Import List ListNotations.
Open Scope R_scope.

Definition adj3 (M : mat3) : mat3 := fun i j => match i, j with
  | O, O => M 1%nat 1%nat * M 2%nat 2%nat - M 1%nat 2%nat * M 2%nat 1%nat
  | O, 1%nat => M 0%nat 2%nat * M 2%nat 1%nat - M 0%nat 1%nat * M 2%nat 2%nat
  | O, _ => M 0%nat 1%nat * M 1%nat 2%nat - M 0%nat 2%nat * M 1%nat 1%nat
  | 1%nat, O => M 1%nat 2%nat * M 2%nat 0%nat - M 1%nat 0%nat * M 2%nat 2%nat
  | 1%nat, 1%nat => M 0%nat 0%nat * M 2%nat 2%nat - M 0%nat 2%nat * M 2%nat 0%nat
  | 1%nat, _ => M 0%nat 2%nat * M 1%nat 0%nat - M 0%nat 0%nat * M 1%nat 2%nat
  | _, O => M 1%nat 0%nat * M 2%nat 1%nat - M 1%nat 1%nat * M 2%nat 0%nat
  | _, 1%nat => M 0%nat 1%nat * M 2%nat 0%nat - M 0%nat 0%nat * M 2%nat 1%nat
  | _, _ => M 0%nat 0%nat * M 1%nat 1%nat - M 0%nat 1%nat * M 1%nat 0%nat
  end.
Lemma adj_left : forall M, meq (mmul (adj3 M) M) (mscal (det3 M) id3).
Proof. intros M i j Hi Hj. idx3 i; idx3 j; m3; unfold adj3; ring. Qed.
Lemma det_mmul : forall A B, det3 (mmul A B) = det3 A * det3 B.
Proof. intros A B. m3. ring. Qed.
Lemma det_meq : forall A B, meq A B -> det3 A = det3 B.
Proof. intros A B H. unfold det3. rewrite !H by lia. reflexivity. Qed.
Lemma det_id : det3 id3 = 1.
Proof. m3. ring. Qed.
Lemma mscal_meq : forall c A B, meq A B -> meq (mscal c A) (mscal c B).
Proof. intros c A B H i j Hi Hj. unfold mscal. now rewrite H. Qed.
Lemma inverse_comm : forall M N, meq (mmul M N) id3 -> meq (mmul N M) id3.
Proof.
  intros M N H. assert (D : det3 M * det3 N = 1) by (rewrite <- det_mmul, (det_meq _ _ H); apply det_id).
  assert (D0 : det3 M <> 0) by (intro E; rewrite E in D; lra).
  assert (A : meq (adj3 M) (mscal (det3 M) N)).
  { eapply meq_trans; [apply meq_sym, mmul_id_r|]. eapply meq_trans; [apply mmul_meq; [apply meq_refl|apply meq_sym, H]|].
    eapply meq_trans; [apply meq_sym, mmul_assoc|]. eapply meq_trans; [apply mmul_meq; [apply adj_left|apply meq_refl]|].
    intros i j Hi Hj. idx3 i; idx3 j; m3; ring. }
  intros i j Hi Hj. apply (Rmult_eq_reg_l (det3 M)); [|exact D0].
  assert (B := mmul_meq _ _ _ _ A (meq_refl M) i j Hi Hj). assert (C := adj_left M i j Hi Hj).
  rewrite C in B. unfold mscal in B at 1. rewrite B. unfold mmul, mscal, sum3. ring.
Qed.
Lemma orth_right : forall M, meq (mmul M (mtr M)) id3 -> orthogonal M.
Proof. intros M H. split; [apply inverse_comm; exact H|exact H]. Qed.
Lemma orth_tr : forall M, orthogonal M -> orthogonal (mtr M).
Proof. intros M [A B]. split; assumption. Qed.

Lemma den_pos : forall e, dot3 e e = 1 -> 0 < rot_den2 e.
Proof.
  intros e H. unfold rot_den2. unfold dot3, sum3 in H. set (a := e 0%nat) in *. set (b := e 1%nat) in *. set (c := e 2%nat) in *. clearbody a b c.
  destruct (Rle_dec (Rabs (b + c)) (Rabs (b - c))) as [L|L].
  - assert (BC : b * c <= 0).
    { apply Rsqr_le_abs_1 in L. unfold Rsqr in L. nra. }
    destruct (Rle_dec (2 * (1 - a * b - b * c - c * a)) 0) as [N|N]; [|lra]. exfalso.
    assert (Z : (b - c) * (b - c) + (c - a) * (c - a) + (a - b) * (a - b) <= 0) by nra.
    assert (b - c = 0) by nra. assert (a - b = 0) by nra. assert (a = b) by lra. assert (b = c) by lra. subst. nra.
  - assert (BC : 0 <= b * c).
    { apply Rnot_le_lt in L. apply Rlt_le in L. apply Rsqr_le_abs_1 in L. unfold Rsqr in L. nra. }
    destruct (Rle_dec (2 * (1 + a * b + b * c - c * a)) 0) as [N|N]; [|lra]. exfalso.
    assert (Z : (b + c) * (b + c) + (c - a) * (c - a) + (a + b) * (a + b) <= 0) by nra.
    assert (b + c = 0) by nra. assert (a + b = 0) by nra. assert (a = c) by lra. assert (b = - c) by lra. subst. nra.
Qed.

Definition rotm (e1 : vec3) : mat3 :=
  fun i j => match i with O => e1 j | 1%nat => rot_e2 e1 j / sqrt (rot_den2 e1) | _ => rot_e3 e1 j / sqrt (rot_den2 e1) end.
Lemma rotm_facts : forall e, dot3 e e = 1 -> meq (mmul (rotm e) (mtr (rotm e))) id3 /\ det3 (rotm e) = 1.
Proof.
  intros e H. assert (P := den_pos e H). assert (S := sqrt_sqrt (rot_den2 e) ltac:(lra)). assert (S0 := sqrt_lt_R0 _ P).
  unfold rotm, rot_e2, rot_e3. rewrite H. unfold rot_den2 in *. unfold dot3, sum3 in H.
  set (a := e 0%nat) in *. set (b := e 1%nat) in *. set (c := e 2%nat) in *.
  destruct (Rle_dec (Rabs (b + c)) (Rabs (b - c))) as [L|L].
  - set (s := sqrt _) in *. clearbody s. assert (I : / s * / s * (2 * (1 - a * b - b * c - c * a)) = 1) by (rewrite <- S; field; lra).
    unfold Rdiv. clear L P S S0. set (k := / s) in *. clearbody k.
    split; [intros i j Hi Hj; idx3 i; idx3 j|]; m3; fold a b c; clearbody a b c; clear - H I; nsatz.
  - set (s := sqrt _) in *. clearbody s. assert (I : / s * / s * (2 * (1 + a * b + b * c - c * a)) = 1) by (rewrite <- S; field; lra).
    unfold Rdiv. clear L P S S0. set (k := / s) in *. clearbody k.
    split; [intros i j Hi Hj; idx3 i; idx3 j|]; m3; fold a b c; clearbody a b c; clear - H I; nsatz.
Qed.

Lemma rotation_ok : forall n, (length n <= 3)%nat -> dot3 (fun i => nth i n 0) (fun i => nth i n 0) = 1 ->
  exists M, rotation_matrix n = Ok M /\ orthogonal M /\ det3 M = 1 /\
    veq (mvec M (fun i => nth i n 0)) (fun i => delta i 0) /\ (forall j, M 0%nat j = nth j n 0) /\ 0 < rot_den2 (fun i => nth i n 0).
Proof.
  intros n L U. exists (rotm (fun i => nth i n 0)). unfold rotation_matrix, pad3. apply Nat.leb_le in L. rewrite L.
  destruct (rotm_facts _ U) as [A B]. assert (D := den_pos _ U). repeat split; try assumption.
  - apply inverse_comm. exact A.
  - intros i Hi. exact (A i 0%nat Hi ltac:(lia)).
Qed.

(** ** rotating a state *)
Lemma veq_trans : forall u v w, veq u v -> veq v w -> veq u w.
Proof. intros u v w A B i Hi. rewrite A, B by assumption. reflexivity. Qed.
Lemma mvec_mmul : forall A B v, veq (mvec (mmul A B) v) (mvec A (mvec B v)).
Proof. intros A B v i Hi. m3. ring. Qed.
Lemma mvec_ext : forall A B u v, meq A B -> veq u v -> veq (mvec A u) (mvec B v).
Proof. intros A B u v H K i Hi. unfold mvec, sum3. rewrite !H, !K by lia. reflexivity. Qed.
Lemma mvec_id : forall v, veq (mvec id3 v) v.
Proof. intros v i Hi. idx3 i; m3; ring. Qed.
Lemma veq_refl : forall v, veq v v. Proof. intros v i _. reflexivity. Qed.
Lemma veq_sym : forall u v, veq u v -> veq v u. Proof. intros u v H i Hi. symmetry. apply H, Hi. Qed.

Section Rot.
Variable o : options.
Variable M : mat3.
Hypothesis OR : orthogonal M.
Notation conj A := (mmul (mmul M A) (mtr M)).
Notation rot Q := (rotate_tensors o Q M).

Lemma conj_vec : forall A v, veq (mvec (conj A) (mvec M v)) (mvec M (mvec A v)).
Proof.
  intros A v. eapply veq_trans; [apply mvec_mmul|]. eapply veq_trans; [apply mvec_mmul|].
  apply mvec_ext; [apply meq_refl|]. apply mvec_ext; [apply meq_refl|].
  eapply veq_trans; [apply veq_sym, mvec_mmul|]. eapply veq_trans; [apply mvec_ext; [apply (proj1 OR)|apply veq_refl]|apply mvec_id].
Qed.
Lemma conj_mul : forall A B, meq (mmul (conj A) (conj B)) (conj (mmul A B)).
Proof.
  intros A B. eapply meq_trans; [apply meq_sym, mmul_assoc|]. apply mmul_meq; [|apply meq_refl].
  eapply meq_trans; [apply mmul_assoc|]. eapply meq_trans; [apply mmul_meq; [apply meq_refl|apply meq_sym, mmul_assoc]|].
  eapply meq_trans; [apply mmul_meq; [apply meq_refl|apply mmul_meq; [apply (proj1 OR)|apply meq_refl]]|].
  eapply meq_trans; [apply mmul_meq; [apply meq_refl|apply mmul_id_l]|]. apply mmul_assoc.
Qed.
Lemma conj_meq : forall A B, meq A B -> meq (conj A) (conj B).
Proof. intros A B H. apply mmul_meq; [apply mmul_meq; [apply meq_refl|exact H]|apply meq_refl]. Qed.
Lemma conj_tr : forall A, meq (mtr (conj A)) (conj (mtr A)).
Proof. intros A i j Hi Hj. m3. ring. Qed.
Lemma conj_gram : forall A, meq (gram (conj A)) (conj (gram A)).
Proof. intros A. unfold gram. eapply meq_trans; [apply mmul_meq; [apply conj_tr|apply meq_refl]|apply conj_mul]. Qed.
Lemma conj_trace : forall G, trace3 (conj G) = trace3 G.
Proof.
  intros G. transitivity (trace3 (mmul (mmul (mtr M) M) G)); [m3; ring|].
  assert (E := mmul_meq _ _ _ _ (proj1 OR) (meq_refl G)). unfold trace3, sum3. rewrite !E by lia. m3. ring.
Qed.
Lemma conj_dev : forall G, meq (dev3 (conj G)) (conj (dev3 G)).
Proof.
  intros G i j Hi Hj. unfold dev3 at 1. rewrite conj_trace. assert (E := proj2 OR i j Hi Hj).
  change (delta i j) with (id3 i j). rewrite <- E. m3. unfold trace3, sum3. 
  set (D0 := if Nat.eqb 0 0 then 1 else 0). m3. field.
Qed.
Lemma conj_AdevG : forall A, meq (AdevG (conj A)) (conj (AdevG A)).
Proof.
  intros A. eapply meq_trans; [apply AdevG_prod|]. eapply meq_trans; [apply mmul_meq; [apply meq_refl|]|].
  - eapply meq_trans; [apply dev3_meq, conj_gram|apply conj_dev].
  - eapply meq_trans; [apply conj_mul|]. apply conj_meq, meq_sym, AdevG_prod.
Qed.
Lemma AdevG_meq : forall A B, meq A B -> meq (AdevG A) (AdevG B).
Proof. intros A B H. assert (H1 := AdevG_prod A). assert (H2 := AdevG_prod B).
  eapply meq_trans; [exact H1|]. eapply meq_trans; [|apply meq_sym, H2]. apply mmul_meq; [exact H|]. apply dev3_meq. unfold gram. apply mmul_meq; [apply mtr_meq, H|exact H]. Qed.
Lemma conj_det : forall A, det3 (conj A) = det3 A.
Proof.
  intros A. rewrite !det_mmul. assert (E : det3 (mtr M) * det3 M = 1) by (rewrite <- det_mmul, (det_meq _ _ (proj1 OR)); apply det_id).
  replace (det3 M * det3 A * det3 (mtr M)) with (det3 A * (det3 (mtr M) * det3 M)) by ring. rewrite E. ring.
Qed.
Lemma conj_devGsq : forall A, devGsq (conj A) = devGsq A.
Proof.
  intros A. rewrite devGsq_right; [|exact (proj1 OR)]. apply devGsq_left. exact (proj1 OR).
Qed.
Lemma conj_dot : forall u v, dot3 (mvec M u) (mvec M v) = dot3 u v.
Proof.
  intros u v. transitivity (dot3 u (mvec (mmul (mtr M) M) v)); [m3; ring|].
  assert (E := mvec_ext _ _ _ _ (proj1 OR) (veq_refl v)). unfold dot3, sum3. rewrite !E by lia. rewrite !(mvec_id v) by lia. reflexivity.
Qed.

Lemma rot_0 : forall Q, rot Q 0%nat = Q 0%nat.
Proof. intro Q. unfold rotate_tensors, setseg. destruct (THERMAL o); reflexivity. Qed.
Lemma rot_1 : forall Q, rot Q 1%nat = Q 1%nat.
Proof. intro Q. unfold rotate_tensors, setseg. destruct (THERMAL o); reflexivity. Qed.
Lemma rot_v : forall Q i, (i < 3)%nat -> rot Q (2 + i)%nat = mvec M (get_rhov Q) i.
Proof. intros Q i Hi. unfold rotate_tensors, setseg. idx3 i; destruct (THERMAL o); reflexivity. Qed.
Lemma rot_A : forall Q i j, (i < 3)%nat -> (j < 3)%nat -> rot Q (5 + 3 * i + j)%nat = conj (get_A Q) i j.
Proof. intros Q i j Hi Hj. unfold rotate_tensors, setseg. idx3 i; idx3 j; destruct (THERMAL o); reflexivity. Qed.
Lemma rot_J : forall Q i, THERMAL o = true -> (i < 3)%nat -> rot Q (14 + i)%nat = mvec M (get_rhoJ Q) i.
Proof. intros Q i HT Hi. unfold rotate_tensors, setseg. rewrite HT. idx3 i; reflexivity. Qed.
Lemma rot_rest : forall Q k, (14 + 3 * b2n (THERMAL o) <= k)%nat -> rot Q k = Q k.
Proof.
  intros Q k Hk. unfold rotate_tensors, setseg. destruct (THERMAL o); cbn [b2n Nat.mul] in Hk;
  repeat match goal with |- context [if ?b then _ else _] => replace b with false
    by (symmetry; apply Bool.andb_false_iff; first [left; apply Nat.leb_gt; lia|right; apply Nat.ltb_ge; lia]) end; reflexivity.
Qed.
End Rot.

Lemma index_cases : forall th k, (k = 0 \/ k = 1 \/ (exists i, i < 3 /\ k = 2 + i) \/ (exists i j, i < 3 /\ j < 3 /\ k = 5 + 3 * i + j)
   \/ (th = true /\ exists i, i < 3 /\ k = 14 + i) \/ (14 + 3 * b2n th <= k))%nat.
Proof.
  intros th k. destruct (le_lt_dec k 1) as [H|H]; [lia|]. destruct (le_lt_dec 5 k) as [H5|H5].
  - destruct (le_lt_dec 14 k) as [H14|H14].
    + destruct th; cbn [b2n]; [|right; right; right; right; right; lia]. destruct (le_lt_dec 17 k); [right; right; right; right; right; lia|].
      right; right; right; right; left. split; [reflexivity|]. exists (k - 14)%nat. lia.
    + right; right; right; left. exists ((k - 5) / 3)%nat, ((k - 5) mod 3)%nat.
      assert (E := Nat.div_mod_eq (k - 5) 3). assert (L := Nat.mod_upper_bound (k - 5) 3 ltac:(lia)). lia.
  - right; right; left. exists (k - 2)%nat. lia.
Qed.

Lemma rot_back : forall o M Q k, orthogonal M -> rotate_tensors o (rotate_tensors o Q M) (mtr M) k = Q k.
Proof.
  intros o M Q k OR. assert (OT := orth_tr M OR).
  destruct (index_cases (THERMAL o) k) as [->|[->|[(i & Hi & ->)|[(i & j & Hi & Hj & ->)|[(T & i & Hi & ->)|H]]]]].
  - now rewrite !rot_0.
  - now rewrite !rot_1.
  - rewrite rot_v by assumption. unfold mvec, sum3, get_rhov. rewrite !rot_v by lia.
    assert (E := mvec_mmul (mtr M) M (get_rhov Q) i Hi). rewrite (mvec_ext _ _ _ _ (proj1 OR) (veq_refl _)), mvec_id in E by exact Hi.
    unfold mvec, sum3 in E. unfold get_rhov at 1 in E. rewrite E. unfold mvec, sum3. reflexivity.
  - rewrite rot_A by assumption.
    assert (E : meq (get_A (rotate_tensors o Q M)) (mmul (mmul M (get_A Q)) (mtr M))) by (intros a b Ha Hb; apply rot_A; assumption).
    rewrite (conj_meq (mtr M) _ _ E) by assumption. clear E.
    assert (E : meq (mmul (mmul (mtr M) (mmul (mmul M (get_A Q)) (mtr M))) (mtr (mtr M))) (get_A Q)).
    { change (mtr (mtr M)) with M. eapply meq_trans; [apply mmul_assoc|].
      eapply meq_trans; [apply mmul_meq; [apply meq_refl|apply mmul_assoc]|].
      eapply meq_trans; [apply mmul_meq; [apply meq_refl|apply mmul_meq; [apply meq_refl|apply (proj1 OR)]]|].
      eapply meq_trans; [apply mmul_meq; [apply meq_refl|apply mmul_id_r]|].
      eapply meq_trans; [apply meq_sym, mmul_assoc|]. eapply meq_trans; [apply mmul_meq; [apply (proj1 OR)|apply meq_refl]|apply mmul_id_l]. }
    rewrite E by assumption. reflexivity.
  - rewrite rot_J by assumption. unfold mvec, sum3, get_rhoJ. rewrite !rot_J by (assumption || lia).
    assert (E := mvec_mmul (mtr M) M (get_rhoJ Q) i Hi). rewrite (mvec_ext _ _ _ _ (proj1 OR) (veq_refl _)), mvec_id in E by exact Hi.
    unfold mvec, sum3 in E. unfold get_rhoJ at 1 in E. rewrite E. unfold mvec, sum3. reflexivity.
  - rewrite !rot_rest by assumption. reflexivity.
Qed.
