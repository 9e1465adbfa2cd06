(** The linear systems of the stencils, and what their solution means. *)
From Coq Require Import Reals Lra List Lia ZArith FinFun.
From Coquelicot Require Import Coquelicot.
From Verif Require Import Base Options Sum PolyModel PolyProof WenoModel WenoProof.
Import List ListNotations.
Open Scope R_scope.
Local Notation combine := WenoModel.combine.

(** translation of a polynomial *)
Definition xmul (c : R) (p : list R) : list R := padd (0 :: p) (pscal c p).
Fixpoint pshift (c : R) (p : list R) : list R := match p with [] => [] | a :: p' => padd [a] (xmul c (pshift c p')) end.
Lemma eval_cons a p t : evaluate (a :: p) t = a + t * evaluate p t.
Proof. rewrite <- !heval_eval. reflexivity. Qed.
Lemma xmul_eval c p t : evaluate (xmul c p) t = (t + c) * evaluate p t.
Proof. unfold xmul. rewrite padd_eval, pscal_eval, eval_cons. ring. Qed.
Lemma eval_nil t : evaluate [] t = 0.
Proof. reflexivity. Qed.
Lemma pshift_eval c p t : evaluate (pshift c p) t = evaluate p (t + c).
Proof. induction p as [|a p IH]; [reflexivity|]. cbn [pshift]. rewrite padd_eval, xmul_eval, IH, !eval_cons, eval_nil. ring. Qed.
Lemma xmul_len c p : length (xmul c p) = S (length p).
Proof. unfold xmul. rewrite padd_len, pscal_len. cbn [length]. lia. Qed.
Lemma pshift_len c p : length (pshift c p) = length p.
Proof. induction p as [|a p IH]; [reflexivity|]. cbn [pshift]. rewrite padd_len, xmul_len, IH. cbn [length]. lia. Qed.

(** integral of a combination *)
Lemma rint_eval_comb n (c : nat -> R) (ps : nat -> poly) a b :
  is_RInt (fun t => rsum n (fun j => c j * evaluate (ps j) t)) a b
    (rsum n (fun j => c j * (evaluate (integrate (ps j)) b - evaluate (integrate (ps j)) a))).
Proof.
  induction n as [|n IH]; cbn [rsum].
  - pose proof (@is_RInt_const R_NormedModule a b 0) as H. unfold scal in H; cbn in H; unfold mult in H; cbn in H.
    rewrite Rmult_0_r in H. exact H.
  - apply (@is_RInt_plus R_NormedModule); [exact IH|].
    apply (@is_RInt_scal R_NormedModule (fun t => evaluate (ps n) t)). apply integrate_RInt.
Qed.

Section M.
Variables (nodes : list R) (bs : list poly).
Hypothesis DN : distinct nodes.
Hypothesis HB : basis_polys nodes = Ok bs.
Let N := length nodes.
Hypothesis N1 : (1 <= N)%nat.
Let basis (j : nat) := nth j bs [].

Lemma basis_lag k : (k < N)%nat -> lagrange nodes k = Ok (basis k).
Proof. destruct (basis_ok nodes) as [b [E [L K]]]. rewrite HB in E. injection E as <-. apply K. Qed.
Lemma basis_len k : (k < N)%nat -> length (basis k) = N.
Proof. intros H. destruct (lagrange_ok nodes k) as [p [E [_ L]]]. rewrite (basis_lag k H) in E. injection E as <-. apply L; auto. Qed.
Lemma basis_val i j : (i < N)%nat -> (j < N)%nat -> evaluate (basis i) (nth j nodes 0) = if Nat.eqb i j then 1 else 0.
Proof.
  intros Hi Hj. destruct (lagrange_ok nodes i) as [p [E [V L]]]. rewrite (basis_lag i Hi) in E. injection E as <-. rewrite V.
  destruct (Nat.eqb_spec i j) as [<-|Ne]; [apply lprod_self; auto|apply lprod_other; auto].
Qed.
Lemma basis_interp q t : (length q <= N)%nat -> evaluate q t = rsum N (fun i => evaluate q (nth i nodes 0) * evaluate (basis i) t).
Proof. intros H. apply (interpolation nodes basis q DN basis_lag H). Qed.
Lemma comb_node (c : nat -> R) k : (k < N)%nat -> rsum N (fun j => c j * evaluate (basis j) (nth k nodes 0)) = c k.
Proof.
  intros Hk. rewrite (rsum_single N k); [rewrite basis_val, Nat.eqb_refl by assumption; ring|exact Hk|].
  intros i Hi Ne. rewrite basis_val by assumption. destruct (Nat.eqb_spec i k); [congruence|ring].
Qed.

Notation M := (coefficient_matrix N basis).

Lemma lo_off s i : Z.of_nat (off N s + i) = (Z.of_nat N - 1 + lo N s i)%Z.
Proof. pose proof (FN_CN N N1). destruct s; cbn [off lo]; lia. Qed.
Lemma lo_step s i : lo N s i = (lo N s 0 + Z.of_nat i)%Z.
Proof. destruct s; cbn [lo]; lia. Qed.
(** the row of the central cell *)
Definition mid (s : stencil) : nat := (N - 1 - off N s)%nat.
Lemma mid_lt s : (mid s < N)%nat.
Proof. unfold mid. lia. Qed.
Lemma mid_off s : (off N s + mid s = N - 1)%nat.
Proof. unfold mid. pose proof (off_le N N1 s). lia. Qed.
Lemma lo_mid s : lo N s (mid s) = 0%Z.
Proof. pose proof (lo_off s (mid s)) as H. rewrite mid_off in H. lia. Qed.

(** [M c] is the vector of cell integrals of the polynomial with node values c *)
Lemma M_int s i c : is_RInt (fun t => rsum N (fun j => c j * evaluate (basis j) t)) (IZR (lo N s i)) (IZR (lo N s i + 1)) (rsum N (fun j => M s i j * c j)).
Proof.
  pose proof (rint_eval_comb N c basis (IZR (lo N s i)) (IZR (lo N s i + 1))) as H.
  replace (rsum N (fun j => M s i j * c j)) with (rsum N (fun j => c j * (evaluate (integrate (basis j)) (IZR (lo N s i + 1)) - evaluate (integrate (basis j)) (IZR (lo N s i))))); [exact H|].
  apply rsum_ext. intros j Hj. unfold coefficient_matrix. ring.
Qed.

Lemma rint_unique f a b u v : @is_RInt R_NormedModule f a b u -> @is_RInt R_NormedModule f a b v -> u = v.
Proof. intros H K. rewrite <- (is_RInt_unique _ _ _ _ H). exact (is_RInt_unique _ _ _ _ K). Qed.

(** injectivity of the systems *)
Lemma M_inj s c : (forall i, (i < N)%nat -> rsum N (fun j => M s i j * c j) = 0) -> forall j, (j < N)%nat -> c j = 0.
Proof.
  intros H j Hj.
  set (p := psum N (fun j => pscal (c j) (basis j))).
  assert (Lp : (length p <= N)%nat).
  { apply psum_len. intros i Hi. rewrite pscal_len, basis_len by exact Hi. lia. }
  assert (Ep : forall t, evaluate p t = rsum N (fun j => c j * evaluate (basis j) t)).
  { intros t. unfold p. rewrite psum_eval. apply rsum_ext. intros i Hi. apply pscal_eval. }
  set (P := integrate p).
  assert (S0 : forall i, (i <= N)%nat -> evaluate P (IZR (lo N s 0 + Z.of_nat i)) = evaluate P (IZR (lo N s 0))).
  { induction i as [|i IH]; intros Hi; [f_equal; f_equal; lia|]. rewrite <- IH by lia.
    pose proof (M_int s i c) as I1. rewrite (H i) in I1 by lia.
    pose proof (integrate_RInt p (IZR (lo N s i)) (IZR (lo N s i + 1))) as I2.
    assert (I3 : is_RInt (evaluate p) (IZR (lo N s i)) (IZR (lo N s i + 1)) 0).
    { eapply (@is_RInt_ext R_NormedModule); [|exact I1]. intros x _. symmetry. apply Ep. }
    pose proof (rint_unique _ _ _ _ _ I2 I3) as E. fold P in E. rewrite lo_step in E.
    replace (lo N s 0 + Z.of_nat (S i))%Z with (lo N s 0 + Z.of_nat i + 1)%Z by lia. lra. }
  set (Q := padd P [- evaluate P (IZR (lo N s 0))]).
  assert (EQ : forall t, evaluate Q t = evaluate P t - evaluate P (IZR (lo N s 0))).
  { intros t. unfold Q. rewrite padd_eval, eval_cons, eval_nil. ring. }
  assert (Z0 : forall t, heval Q t = 0).
  { apply (roots_zero (map (fun i => IZR (lo N s 0 + Z.of_nat i)) (seq 0 (S N)))).
    - apply Injective_map_NoDup; [|apply seq_NoDup]. intros x y E. apply eq_IZR in E. lia.
    - rewrite map_length, seq_length. unfold Q, P. rewrite padd_len, integrate_len. cbn [length]. lia.
    - intros r Hr. apply in_map_iff in Hr. destruct Hr as [i [<- Hi]]. apply in_seq in Hi. rewrite heval_eval, EQ, S0 by lia. ring. }
  assert (Dp : forall t, evaluate p t = 0).
  { intros t. pose proof (integrate_derive p t) as D1.
    assert (D2 : is_derive (evaluate (integrate p)) t 0).
    { apply (is_derive_ext (fun _ => evaluate P (IZR (lo N s 0)))).
      - intros y. pose proof (Z0 y) as E. rewrite heval_eval, EQ in E. fold P. lra.
      - apply (@is_derive_const R_AbsRing R_NormedModule). }
    rewrite <- (is_derive_unique _ _ _ D1). exact (is_derive_unique _ _ _ D2). }
  rewrite <- (comb_node c j Hj), <- Ep. apply Dp.
Qed.

Lemma M_cancel s c d : (forall i, (i < N)%nat -> rsum N (fun j => M s i j * c j) = rsum N (fun j => M s i j * d j)) ->
  forall j, (j < N)%nat -> c j = d j.
Proof.
  intros H j Hj. cut (c j - d j = 0); [lra|].
  apply (M_inj s (fun j => c j - d j)); [|exact Hj]. intros i Hi.
  rewrite (rsum_ext N _ (fun j => M s i j * c j - M s i j * d j)) by (intros; ring). rewrite rsum_minus, H by exact Hi. ring.
Qed.

(** every system has a solution *)
Definition pts (s : stencil) : list R := map (fun i => IZR (lo N s 0 + Z.of_nat i)) (seq 0 (S N)).
Definition solve_poly (s : stencil) (d : nat -> R) : poly :=
  match basis_polys (pts s) with
  | Ok b => match differentiate (psum (S N) (fun k => pscal (rsum k d) (nth k b []))) with Ok p => p | _ => [] end
  | _ => []
  end.

Lemma pts_nth s k : (k <= N)%nat -> nth k (pts s) 0 = IZR (lo N s 0 + Z.of_nat k).
Proof. intros H. unfold pts. rewrite (nth_map_seq (fun i => IZR (lo N s 0 + Z.of_nat i))) by lia. reflexivity. Qed.
Lemma pts_len s : length (pts s) = S N.
Proof. unfold pts. now rewrite map_length, seq_length. Qed.
Lemma pts_distinct s : distinct (pts s).
Proof. intros i j Hi Hj. rewrite pts_len in *. rewrite !pts_nth by lia. intros E. apply eq_IZR in E. lia. Qed.

Lemma solve_poly_ok s d : (length (solve_poly s d) <= N)%nat /\
  forall i, (i < N)%nat -> is_RInt (evaluate (solve_poly s d)) (IZR (lo N s i)) (IZR (lo N s i + 1)) (d i).
Proof.
  unfold solve_poly. destruct (basis_ok (pts s)) as [b [E [L K]]]. rewrite E. rewrite pts_len in *.
  assert (Lb : forall k, (k < S N)%nat -> length (nth k b []) = S N /\ forall j, (j < S N)%nat -> evaluate (nth k b []) (nth j (pts s) 0) = if Nat.eqb k j then 1 else 0).
  { intros k Hk. destruct (lagrange_ok (pts s) k) as [p [Ep [Vp Lp]]]. rewrite K in Ep by exact Hk. injection Ep as <-.
    rewrite pts_len in *. split; [apply Lp; lia|]. intros j Hj. rewrite Vp.
    destruct (Nat.eqb_spec k j) as [<-|Ne]; [apply lprod_self; rewrite ?pts_len; auto; apply pts_distinct|apply lprod_other; auto]. }
  set (P := psum (S N) (fun k => pscal (rsum k d) (nth k b []))).
  assert (LP : length P = S N).
  { unfold P. clear - Lb. assert (G : forall m, (m <= S N)%nat -> length (psum m (fun k => pscal (rsum k d) (nth k b []))) = if Nat.eqb m 0 then 0%nat else S N).
    { induction m as [|m IH]; intros H; [reflexivity|]. cbn [psum]. rewrite padd_len, pscal_len, IH by lia. rewrite (proj1 (Lb m ltac:(lia))).
      destruct m; cbn [Nat.eqb]; lia. }
    rewrite G by lia. reflexivity. }
  assert (VP : forall k, (k <= N)%nat -> evaluate P (nth k (pts s) 0) = rsum k d).
  { intros k Hk. unfold P. rewrite psum_eval. rewrite (rsum_single (S N) k); [|lia|].
    - rewrite pscal_eval. rewrite (proj2 (Lb k ltac:(lia)) k ltac:(lia)), Nat.eqb_refl. ring.
    - intros i Hi Ne. rewrite pscal_eval. rewrite (proj2 (Lb i Hi) k ltac:(lia)). destruct (Nat.eqb_spec i k); [congruence|ring]. }
  destruct (differentiate_ok P) as [p [Edp [Lp _]]]; [intros C; rewrite C in LP; discriminate|]. rewrite Edp. split; [lia|].
  intros i Hi.
  replace (d i) with (evaluate P (IZR (lo N s i + 1)) - evaluate P (IZR (lo N s i))).
  - apply (is_RInt_derive (evaluate P) (evaluate p)); [intros x _; apply derive_eval; exact Edp|intros x _; apply continuous_evaluate].
  - rewrite lo_step. replace (lo N s 0 + Z.of_nat i + 1)%Z with (lo N s 0 + Z.of_nat (S i))%Z by lia.
    rewrite <- !pts_nth by lia. rewrite !VP by lia. cbn [rsum]. ring.
Qed.

(** what the linear solver is required to do *)
Definition solver (inv : stencil -> (nat -> R) -> nat -> R) : Prop :=
  forall s d i, (i < N)%nat -> rsum N (fun j => M s i j * inv s d j) = d i.

Lemma solver_exists : exists inv, solver inv.
Proof.
  exists (fun s d j => evaluate (solve_poly s d) (nth j nodes 0)). intros s d i Hi. destruct (solve_poly_ok s d) as [L H].
  apply (rint_unique _ _ _ _ _ (M_int s i (fun j => evaluate (solve_poly s d) (nth j nodes 0)))).
  eapply (@is_RInt_ext R_NormedModule); [|apply H; exact Hi]. intros x _. apply (basis_interp _ x L).
Qed.

Section Rec.
Variable inv : stencil -> (nat -> R) -> nat -> R.
Hypothesis SV : solver inv.
Variables (SIG : nat -> nat -> R) (LAMS LAMC EPS : R).
Hypothesis Lpos : 0 < LAMS /\ 0 < LAMC.
Hypothesis Qpos : forall w, rsum N (fun i => rsum N (fun j => w i * SIG i j * w j)) + EPS <> 0.

Lemma pow8 x : x <> 0 -> 0 < (x * x) * (x * x) * ((x * x) * (x * x)).
Proof. intros H. assert (0 < x * x) by nra. assert (0 < (x * x) * (x * x)) by nra. nra. Qed.

Lemma weight_pos w lam : 0 < lam -> 0 < weight N SIG EPS w lam.
Proof. intros H. unfold weight. apply Rdiv_lt_0_compat; [exact H|]. apply pow8. apply Qpos. Qed.
Lemma LAM_pos s : 0 < LAM LAMS LAMC s.
Proof. destruct Lpos. destruct s; cbn; assumption. Qed.
Lemma ocol_pos data s v : 0 < ocol N SIG LAMS LAMC EPS inv data s v.
Proof. apply weight_pos, LAM_pos. Qed.

(** sums over a list of stencils *)
Fixpoint lsum {A} (f : A -> R) (l : list A) : R := match l with [] => 0 | a :: l' => f a + lsum f l' end.
Lemma fold_lsum {A} (f : A -> R) l : forall z, fold_left (fun acc s => acc + f s) l z = z + lsum f l.
Proof. induction l as [|a l IH]; intros z; cbn [fold_left lsum]; [ring|]. rewrite IH. ring. Qed.
Lemma lsum_pos {A} (f : A -> R) l : (forall a, 0 < f a) -> l <> [] -> 0 < lsum f l.
Proof.
  intros H. induction l as [|a l IH]; intros Hl; [congruence|]. cbn. destruct l as [|b l]; [cbn; specialize (H a); lra|].
  specialize (H a). specialize (IH ltac:(discriminate)). lra.
Qed.
Lemma lsum_ext {A} (f g : A -> R) l : (forall a, In a l -> f a = g a) -> lsum f l = lsum g l.
Proof. induction l as [|a l IH]; intros H; [reflexivity|]. cbn. rewrite H by now left. rewrite IH; [reflexivity|]. intros; apply H; now right. Qed.
Lemma lsum_scal {A} c (f : A -> R) l : lsum (fun a => c * f a) l = c * lsum f l.
Proof. induction l as [|a l IH]; cbn; [ring|]. rewrite IH. ring. Qed.
Lemma lsum_div {A} c (f : A -> R) l : lsum (fun a => f a / c) l = lsum f l / c.
Proof. induction l as [|a l IH]; cbn; [unfold Rdiv; ring|]. rewrite IH. unfold Rdiv. ring. Qed.
Lemma rsum_lsum {A} n (f : nat -> A -> R) l : rsum n (fun i => lsum (f i) l) = lsum (fun a => rsum n (fun i => f i a)) l.
Proof. induction l as [|a l IH]; cbn; [apply rsum_zero; reflexivity|]. rewrite rsum_plus, IH. reflexivity. Qed.

(** normalised weights *)
Definition omega (data : nat -> vec) (sel : list stencil) (v : nat) (s : stencil) : R :=
  ocol N SIG LAMS LAMC EPS inv data s v / lsum (fun s => ocol N SIG LAMS LAMC EPS inv data s v) sel.

Lemma omega_pos data sel v s : sel <> [] -> 0 < omega data sel v s.
Proof. intros H. apply Rdiv_lt_0_compat; [apply ocol_pos|]. apply lsum_pos; [intros; apply ocol_pos|exact H]. Qed.
Lemma omega_sum data sel v : sel <> [] -> lsum (omega data sel v) sel = 1.
Proof. intros H. unfold omega. rewrite lsum_div. apply Rinv_r. apply Rgt_not_eq. apply lsum_pos; [intros; apply ocol_pos|exact H]. Qed.

Lemma combine_omega data sel i v : combine N SIG LAMS LAMC EPS inv data sel i v = lsum (fun s => omega data sel v s * wcol N inv data s v i) sel.
Proof.
  unfold combine. rewrite (fold_lsum (fun s => wcol N inv data s v i * ocol N SIG LAMS LAMC EPS inv data s v)), (fold_lsum (fun s => ocol N SIG LAMS LAMC EPS inv data s v)).
  rewrite !Rplus_0_l. rewrite <- lsum_div. apply lsum_ext. intros s _. unfold omega, Rdiv. ring.
Qed.

(** the average of the reconstructed polynomial *)
Lemma wcol_avg data s v : is_RInt (fun t => rsum N (fun j => wcol N inv data s v j * evaluate (basis j) t)) 0 1 (data (N - 1)%nat v).
Proof.
  pose proof (M_int s (mid s) (wcol N inv data s v)) as H. unfold wcol in H at 2. rewrite (SV s _ (mid s) (mid_lt s)) in H.
  rewrite mid_off, lo_mid in H. exact H.
Qed.

Lemma combine_avg data sel v : sel <> [] ->
  is_RInt (fun t => rsum N (fun j => combine N SIG LAMS LAMC EPS inv data sel j v * evaluate (basis j) t)) 0 1 (data (N - 1)%nat v).
Proof.
  intros H.
  replace (data (N - 1)%nat v) with (rsum N (fun j => combine N SIG LAMS LAMC EPS inv data sel j v * (evaluate (integrate (basis j)) 1 - evaluate (integrate (basis j)) 0))).
  - apply rint_eval_comb.
  - rewrite (rsum_ext N _ (fun j => lsum (fun s => omega data sel v s * (wcol N inv data s v j * (evaluate (integrate (basis j)) 1 - evaluate (integrate (basis j)) 0))) sel)).
    + rewrite rsum_lsum. rewrite (lsum_ext _ (fun s => data (N - 1)%nat v * omega data sel v s)).
      * rewrite lsum_scal, omega_sum by exact H. ring.
      * intros s _. rewrite rsum_scal. rewrite Rmult_comm. f_equal.
        apply (rint_unique _ _ _ _ _ (rint_eval_comb N (wcol N inv data s v) basis 0 1)). apply wcol_avg.
    + intros j Hj. rewrite combine_omega. rewrite Rmult_comm, <- lsum_scal. apply lsum_ext. intros; ring.
Qed.

(** exactness *)
Lemma wcol_exact data q v s : (length q <= N)%nat ->
  (forall k, (k < 2 * N - 1)%nat -> is_RInt (evaluate q) (INR k - INR (N - 1)) (INR k - INR (N - 1) + 1) (data k v)) ->
  forall j, (j < N)%nat -> wcol N inv data s v j = evaluate q (nth j nodes 0).
Proof.
  intros Lq Hd. apply (M_cancel s). intros i Hi. unfold wcol. rewrite (SV s _ i Hi).
  symmetry. apply (rint_unique _ _ _ _ _ (M_int s i (fun j => evaluate q (nth j nodes 0)))).
  eapply (@is_RInt_ext R_NormedModule). { intros x _. apply (basis_interp q x Lq). }
  pose proof (off_le N N1 s). specialize (Hd (off N s + i)%nat ltac:(lia)).
  replace (IZR (lo N s i)) with (INR (off N s + i) - INR (N - 1)).
  - rewrite plus_IZR. replace (IZR (lo N s i)) with (INR (off N s + i) - INR (N - 1)); [exact Hd|].
    rewrite !INR_IZR_INZ, <- minus_IZR. f_equal. rewrite lo_off. lia.
  - rewrite !INR_IZR_INZ, <- minus_IZR. f_equal. rewrite lo_off. lia.
Qed.

Lemma combine_exact data sel q v : sel <> [] -> (length q <= N)%nat ->
  (forall k, (k < 2 * N - 1)%nat -> is_RInt (evaluate q) (INR k - INR (N - 1)) (INR k - INR (N - 1) + 1) (data k v)) ->
  forall j, (j < N)%nat -> combine N SIG LAMS LAMC EPS inv data sel j v = evaluate q (nth j nodes 0).
Proof.
  intros Hs Lq Hd j Hj. rewrite combine_omega. rewrite (lsum_ext _ (fun s => evaluate q (nth j nodes 0) * omega data sel v s)).
  - rewrite lsum_scal, omega_sum by exact Hs. ring.
  - intros s _. rewrite (wcol_exact data q v s Lq Hd j Hj). ring.
Qed.
End Rec.
End M.
