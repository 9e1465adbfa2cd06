(** The Arnoldi process of lgmres in exact arithmetic. *)
From Coq Require Import Reals Lra Psatz Lia.
From Verif Require Import Base Sum KrylovModel KrylovSpec KrylovProof.
Import List ListNotations.
Open Scope R_scope.

Lemma delta_same r : delta r r = 1.
Proof. unfold delta. rewrite Nat.eqb_refl. reflexivity. Qed.
Lemma delta_other r s : r <> s -> delta r s = 0.
Proof. intros H. unfold delta. destruct (Nat.eqb_spec r s); [contradiction|reflexivity]. Qed.

Section Dim.
Variable n : nat.
Notation vdot := (vdot n).
Notation vnorm := (vnorm n).

Lemma dot_ext a b c d : (forall i, (i < n)%nat -> a i = b i) -> (forall i, (i < n)%nat -> c i = d i) -> vdot a c = vdot b d.
Proof. intros H K. apply rsum_ext. intros i Hi. rewrite H, K by exact Hi. reflexivity. Qed.
Lemma dot_comm a b : vdot a b = vdot b a.
Proof. apply rsum_ext. intros i _. ring. Qed.
Lemma dot_sub_r a b c : vdot a (vsub b c) = vdot a b - vdot a c.
Proof. unfold KrylovModel.vdot, vsub. rewrite <- rsum_minus. apply rsum_ext. intros. ring. Qed.
Lemma dot_scal_r a c b : vdot a (vscal c b) = c * vdot a b.
Proof. unfold KrylovModel.vdot, vscal. rewrite <- rsum_scal. apply rsum_ext. intros. ring. Qed.
Lemma dot_lin_r k c V u : vdot u (lincomb k c V) = rsum k (fun r => c r * vdot u (V r)).
Proof.
  unfold KrylovModel.vdot, lincomb. transitivity (rsum n (fun i => rsum k (fun r => c r * (u i * V r i)))).
  - apply rsum_ext. intros i _. rewrite <- rsum_scal. apply rsum_ext. intros. ring.
  - rewrite rsum_swap. apply rsum_ext. intros r _. apply rsum_scal.
Qed.
Lemma norm_zero v : vnorm v = 0 -> forall i, (i < n)%nat -> v i = 0.
Proof.
  intros H. assert (D : vdot v v = 0) by (apply sqrt_eq_0; [apply vdot_nonneg|exact H]). intros i Hi. apply Rsqr_0_uniq. unfold Rsqr. unfold KrylovModel.vdot in D. clear H.
  revert i Hi D. induction n as [|m IH]; intros i Hi D; [lia|]. cbn [rsum] in D. assert (0 <= rsum m (fun i => v i * v i)) by (apply rsum_nonneg; intros; apply Rle_0_sqr). assert (0 <= v m * v m) by apply Rle_0_sqr.
  destruct (Nat.eq_dec i m) as [->|]; [lra|]. apply IH; [lia|lra].
Qed.
Lemma norm_sq v : vnorm v * vnorm v = vdot v v.
Proof. apply sqrt_sqrt, vdot_nonneg. Qed.

Definition orthonormal (k : nat) (V : nat -> dv) : Prop := forall r s, (r < k)%nat -> (s < k)%nat -> vdot (V r) (V s) = delta r s.
Lemma norm_lin k c V : orthonormal k V -> vdot (lincomb k c V) (lincomb k c V) = rsum k (fun r => c r * c r).
Proof.
  intros O. rewrite dot_lin_r. apply rsum_ext. intros r Hr. f_equal. rewrite dot_comm, dot_lin_r. rewrite (rsum_single k r); [rewrite O, delta_same by assumption; ring|exact Hr|].
  intros s Hs Hn. rewrite O, delta_other by (assumption || auto). ring.
Qed.

(** ** matrices *)
Lemma mat_lin f k c V : is_matrix n f -> forall i, (i < n)%nat -> f (lincomb k c V) i = rsum k (fun r => c r * f (V r) i).
Proof.
  intros [A HA] i Hi. rewrite HA by exact Hi. unfold lincomb. transitivity (rsum n (fun j => rsum k (fun r => c r * (A i j * V r j)))).
  - apply rsum_ext. intros j _. rewrite <- rsum_scal. apply rsum_ext. intros. ring.
  - rewrite rsum_swap. apply rsum_ext. intros r _. rewrite rsum_scal, HA by exact Hi. reflexivity.
Qed.
Lemma mat_ext f u v : is_matrix n f -> (forall i, (i < n)%nat -> u i = v i) -> forall i, (i < n)%nat -> f u i = f v i.
Proof. intros [A HA] H i Hi. rewrite !HA by exact Hi. apply rsum_ext. intros j Hj. rewrite H by exact Hj. reflexivity. Qed.
Lemma mat_add f u v : is_matrix n f -> forall i, (i < n)%nat -> f (vadd u v) i = f u i + f v i.
Proof. intros [A HA] i Hi. rewrite !HA by exact Hi. unfold vadd. rewrite <- rsum_plus. apply rsum_ext. intros. ring. Qed.
Lemma mat_sub f u v : is_matrix n f -> forall i, (i < n)%nat -> f (vsub u v) i = f u i - f v i.
Proof. intros [A HA] i Hi. rewrite !HA by exact Hi. unfold vsub. rewrite <- rsum_minus. apply rsum_ext. intros. ring. Qed.
Lemma mat_scal f c u : is_matrix n f -> forall i, (i < n)%nat -> f (vscal c u) i = c * f u i.
Proof. intros [A HA] i Hi. rewrite !HA by exact Hi. unfold vscal. rewrite <- rsum_scal. apply rsum_ext. intros. ring. Qed.
Lemma mat_comp f g : is_matrix n f -> is_matrix n g -> is_matrix n (fun v => f (g v)).
Proof.
  intros [A HA] [C HC]. exists (fun i j => rsum n (fun k => A i k * C k j)). intros v i Hi. rewrite HA by exact Hi.
  transitivity (rsum n (fun k => rsum n (fun j => A i k * C k j * v j))).
  - apply rsum_ext. intros k Hk. rewrite HC by exact Hk. rewrite <- rsum_scal. apply rsum_ext. intros. ring.
  - rewrite rsum_swap. apply rsum_ext. intros j _. rewrite rsum_scal_r. reflexivity.
Qed.

(** ** Gram-Schmidt *)
Definition vec (l : list dv) (r : nat) : dv := nth r l vzero.
Lemma mgs_ok vs : forall v h v', mgs n vs v = (h, v') -> orthonormal (List.length vs) (vec vs) ->
  List.length h = List.length vs /\ (forall i, v i = v' i + rsum (List.length vs) (fun r => nth r h 0 * vec vs r i)) /\
  (forall r, (r < List.length vs)%nat -> vdot (vec vs r) v' = 0).
Proof.
  induction vs as [|w vs IH]; intros v h v' E O; cbn [mgs] in E.
  - injection E as <- <-. cbn. split; [reflexivity|]. split; [intros; ring|]. intros r Hr. lia.
  - destruct (mgs n vs _) as [h1 v1] eqn:E1. injection E as <- <-. apply IH in E1.
    + destruct E1 as [L [R1 P]]. cbn [List.length]. split; [lia|]. split.
      * intros i. rewrite rsum_S_l. cbn [nth]. specialize (R1 i). unfold vsub at 1, vscal in R1. unfold vec in *. cbn [nth]. rewrite Rplus_comm, Rplus_assoc. rewrite (Rplus_comm _ (v1 i)), <- R1. ring.
      * intros r Hr. destruct r as [|r]; [|apply P; lia]. unfold vec. cbn [nth].
        assert (E : vdot w v1 = vdot w (vsub (vsub v (vscal (vdot w v) w)) (lincomb (List.length vs) (fun r => nth r h1 0) (vec vs)))).
        { apply dot_ext; [reflexivity|]. intros i _. unfold vsub at 1. rewrite R1. unfold lincomb. ring. }
        rewrite E, dot_sub_r, dot_lin_r, dot_sub_r, dot_scal_r. assert (WW := O 0%nat 0%nat ltac:(cbn; lia) ltac:(cbn; lia)). rewrite delta_same in WW. unfold vec in WW. cbn [nth] in WW. rewrite WW.
        rewrite rsum_zero; [ring|]. intros s Hs. assert (WS := O 0%nat (S s) ltac:(cbn; lia) ltac:(cbn; lia)). rewrite delta_other in WS by lia. unfold vec in *. cbn [nth] in WS. rewrite WS. ring.
    + intros r s Hr Hs. specialize (O (S r) (S s) ltac:(cbn; lia) ltac:(cbn; lia)). unfold vec in *. cbn [nth] in O. rewrite O. unfold delta. reflexivity.
Qed.

(** ** the process *)
Section Arn.
Variables matvec psolve : dv -> dv.
Variable qr : nat -> nat -> dmat -> dmat * dmat.
Variable junk : dv.
Hypothesis HM : is_matrix n matvec.
Hypothesis HP : is_matrix n psolve.
Hypothesis HQ : qr_ok qr.
Notation inner_step := (inner_step n matvec psolve qr junk).
Notation inner := (inner n matvec psolve qr junk).
Notation B v := (psolve (matvec v)).

Definition hess (q : nat) (st : arnoldi) : dmat := fun r c => rsum (S q) (fun k => aQ st r k * aR st k c).
Record arn (vs0 : dv) (q : nat) (st : arnoldi) : Prop := mkarn {
  ar_vs : List.length (avs st) = S q;
  ar_ws : List.length (aws st) = q;
  ar_Qz : forall r c, (S q <= r \/ S q <= c)%nat -> aQ st r c = 0;
  ar_Qo : orthogonal (S q) (aQ st);
  ar_Rz : forall r c, (S q <= r \/ q <= c \/ c < r)%nat -> aR st r c = 0;
  ar_rel : forall c i, (c < q)%nat -> (i < n)%nat -> B (vec (aws st) c) i = rsum (S q) (fun r => hess q st r c * vec (avs st) r i);
  ar_hes : forall r c, (c < q)%nat -> (r < S q)%nat -> (S c < r)%nat -> hess q st r c = 0;
  ar_0 : vec (avs st) 0 = vs0
}.
Lemma arn_start vs0 : arn vs0 0 (mkar [vs0] [] start (fun _ _ => 0)).
Proof.
  constructor; cbn [avs aws aQ aR]; try reflexivity.
  - intros r c H. unfold start. destruct (Nat.eqb_spec r 0); destruct (Nat.eqb_spec c 0); cbn; try reflexivity. lia.
  - intros r s Hr Hs. assert (r = 0%nat) by lia. assert (s = 0%nat) by lia. subst. unfold start, delta. cbn. split; ring.
  - intros c i H. lia.
  - intros r c H. lia.
Qed.
Lemma vec_app_l l x r : (r < List.length l)%nat -> vec (l ++ [x]) r = vec l r.
Proof. intros H. unfold vec. apply app_nth1, H. Qed.
Lemma vec_app_r l x : vec (l ++ [x]) (List.length l) = x.
Proof. unfold vec. apply nth_middle. Qed.

Lemma step_arn ov vs0 q st st' hj vn : arn vs0 q st -> orthonormal (S q) (vec (avs st)) -> inner_step ov vs0 st (S q) = (st', hj, vn) ->
  arn vs0 (S q) st' /\ orthonormal (S q) (vec (avs st')) /\ (hj <> 0 -> orthonormal (S (S q)) (vec (avs st'))) /\ 0 <= hj /\ 0 <= vn /\
  hess (S q) st' (S q) q = hj /\ (forall r c, (c < q)%nat -> (r < S q)%nat -> hess (S q) st' r c = hess q st r c) /\
  (exists x, avs st' = avs st ++ [x]) /\ aws st' = aws st ++ [pick ov vs0 (avs st) (S q)].
Proof.
  intros I O E. unfold KrylovModel.inner_step in E. set (z := pick ov vs0 (avs st) (S q)) in *. destruct (mgs n (avs st) (psolve (matvec z))) as [h v] eqn:EG. assert (L := ar_vs _ _ _ I).
  destruct (mgs_ok _ _ _ _ EG) as [LH [DEC PER]]; [rewrite L; exact O|]. rewrite L in *.
  set (Q1 := set11 (aQ st) (S q)) in *. set (hl := h ++ [vnorm v]) in *. set (A := extended Q1 (aR st) hl (S q)) in *.
  assert (QS := HQ (S q + 1)%nat (S q) A ltac:(lia)). destruct (qr (S q + 1) (S q) A) as [Qn Rn] eqn:EQ. destruct QS as [QO [QT QA]]. replace (S q + 1)%nat with (S (S q)) in * by lia.
  injection E as ES EH EV. set (x := vdiv junk v (vnorm v)) in *.
  assert (EQ' : aQ st' = corner Q1 Qn (S (S q)) (S (S q))) by (rewrite <- ES; reflexivity). assert (ER' : aR st' = corner (aR st) Rn (S (S q)) (S q)) by (rewrite <- ES; reflexivity).
  assert (EA : avs st' = avs st ++ [x]) by (rewrite <- ES; reflexivity). assert (EW : aws st' = aws st ++ [z]) by (rewrite <- ES; reflexivity). clear ES.
  assert (XV : forall i, (i < n)%nat -> v i = vnorm v * x i).
  { intros i Hi. unfold x, vdiv. destruct (Req_EM_T (vnorm v) 0) as [Z|Z]; [rewrite Z, (norm_zero v Z i Hi); ring|unfold vscal; field; exact Z]. }
  assert (V1 : forall r, (r < S q)%nat -> vec (avs st') r = vec (avs st) r) by (intros r Hr; rewrite EA; apply vec_app_l; lia).
  assert (V2 : vec (avs st') (S q) = x) by (rewrite EA, <- L; apply vec_app_r).
  assert (CQ : forall r c, (r < S (S q))%nat -> (c < S (S q))%nat -> aQ st' r c = Qn r c).
  { intros r c Hr Hc. rewrite EQ'. unfold corner. destruct (Nat.ltb_spec r (S (S q))); [|lia]. destruct (Nat.ltb_spec c (S (S q))); [|lia]. reflexivity. }
  assert (CR : forall r c, (r < S (S q))%nat -> (c < S q)%nat -> aR st' r c = Rn r c).
  { intros r c Hr Hc. rewrite ER'. unfold corner. destruct (Nat.ltb_spec r (S (S q))); [|lia]. destruct (Nat.ltb_spec c (S q)); [|lia]. reflexivity. }
  assert (HE : forall r c, (r < S (S q))%nat -> (c < S q)%nat -> hess (S q) st' r c = A r c).
  { intros r c Hr Hc. rewrite QA by assumption. unfold hess. apply rsum_ext. intros k Hk. rewrite CQ, CR by assumption. reflexivity. }
  assert (AC : forall r c, (c < q)%nat -> (r < S q)%nat -> A r c = hess q st r c).
  { intros r c Hc Hr. unfold A, extended. destruct (Nat.ltb_spec c (S q - 1)); [|lia]. replace (S q + 1)%nat with (S (S q)) by lia. cbn [rsum]. rewrite (ar_Rz _ _ _ I (S q) c) by lia. rewrite Rmult_0_r, Rplus_0_r. unfold hess. cbn [rsum].
    f_equal; [apply rsum_ext; intros k Hk|]; unfold Q1, set11; destruct (Nat.eqb_spec r (S q)); [lia|reflexivity|lia|reflexivity]. }
  assert (AL : forall c, (c < q)%nat -> A (S q) c = 0).
  { intros c Hc. unfold A, extended. destruct (Nat.ltb_spec c (S q - 1)); [|lia]. replace (S q + 1)%nat with (S (S q)) by lia. apply rsum_zero. intros k Hk. destruct (Nat.eq_dec k (S q)) as [->|NK]; [rewrite (ar_Rz _ _ _ I (S q) c) by lia; ring|].
    unfold Q1, set11. destruct (Nat.eqb_spec k (S q)); [lia|]. rewrite Bool.andb_false_r. rewrite (ar_Qz _ _ _ I) by lia. ring. }
  assert (AH : forall r, (r < S q)%nat -> A r q = nth r h 0).
  { intros r Hr. unfold A, extended. destruct (Nat.ltb_spec q (S q - 1)); [lia|]. unfold hl. apply app_nth1. lia. }
  assert (AN : A (S q) q = vnorm v).
  { unfold A, extended. destruct (Nat.ltb_spec q (S q - 1)); [lia|]. unfold hl. rewrite <- LH. apply nth_middle. }
  assert (ON : orthonormal (S q) (vec (avs st'))) by (intros r s Hr Hs; rewrite !V1 by assumption; apply O; assumption).
  split; [constructor|].
  - rewrite EA, app_length, L. cbn. lia.
  - rewrite EW, app_length, (ar_ws _ _ _ I). cbn. lia.
  - intros r c H. rewrite EQ'. unfold corner. destruct (Nat.ltb_spec r (S (S q))); destruct (Nat.ltb_spec c (S (S q))); cbn [andb]; try lia; unfold Q1, set11; destruct (Nat.eqb_spec r (S q)); destruct (Nat.eqb_spec c (S q)); cbn [andb]; try lia; apply (ar_Qz _ _ _ I); lia.
  - intros r s Hr Hs. destruct (QO r s Hr Hs) as [O1 O2]. split; [rewrite <- O1|rewrite <- O2]; apply rsum_ext; intros k Hk; rewrite !CQ by assumption; reflexivity.
  - intros r c H. rewrite ER'. unfold corner. destruct (Nat.ltb_spec r (S (S q))); destruct (Nat.ltb_spec c (S q)); cbn [andb]; try (apply (ar_Rz _ _ _ I); lia). apply QT; lia.
  - intros c i Hc Hi. destruct (Nat.eq_dec c q) as [->|NC].
    + assert (WC : vec (aws st') q = z) by (rewrite EW; rewrite <- (ar_ws _ _ _ I) at 1; apply vec_app_r). rewrite WC. rewrite DEC. cbn [rsum]. rewrite (HE (S q)), AN, V2, <- XV by lia. rewrite HE, AH, V1 by lia. rewrite Rplus_comm. f_equal. f_equal.
      apply rsum_ext. intros r Hr. rewrite HE, AH, V1 by lia. reflexivity.
    + assert (WC : vec (aws st') c = vec (aws st) c) by (rewrite EW; apply vec_app_l; rewrite (ar_ws _ _ _ I); lia). rewrite WC. rewrite (ar_rel _ _ _ I) by lia. cbn [rsum]. rewrite (HE (S q)), AL by lia. rewrite HE, AC, V1 by lia. rewrite Rmult_0_l, Rplus_0_r. f_equal.
      apply rsum_ext. intros r Hr. rewrite HE, AC, V1 by lia. reflexivity.
  - intros r c Hc Hr Hrc. rewrite HE by lia. destruct (Nat.eq_dec r (S q)) as [->|NR]; [apply AL; lia|]. rewrite AC by lia. apply (ar_hes _ _ _ I); lia.
  - rewrite V1 by lia. apply (ar_0 _ _ _ I).
  - split; [exact ON|]. split.
    { intros HN r s Hr Hs. assert (D : forall r, (r < S q)%nat -> vdot (vec (avs st) r) x = 0).
      { intros r' Hr'. unfold x, vdiv. destruct (Req_EM_T (vnorm v) 0); [congruence|]. rewrite dot_scal_r, PER by exact Hr'. ring. }
      destruct (Nat.eq_dec r (S q)) as [->|NR]; destruct (Nat.eq_dec s (S q)) as [->|NS].
      - rewrite V2, delta_same. unfold x, vdiv. destruct (Req_EM_T (vnorm v) 0); [congruence|]. rewrite dot_scal_r, dot_comm, dot_scal_r, <- norm_sq. field. assumption.
      - rewrite V2, V1, delta_other, dot_comm by lia. apply D. lia.
      - rewrite V2, V1, delta_other by lia. apply D. lia.
      - apply ON; lia. }
    split; [rewrite <- EH; apply sqrt_pos|]. split; [rewrite <- EV; apply sqrt_pos|]. split; [rewrite HE, AN by lia; exact EH|]. split; [intros r c Hc Hr; rewrite HE, AC by lia; reflexivity|]. split; [exists x; exact EA|exact EW].
Qed.
End Arn.
End Dim.
