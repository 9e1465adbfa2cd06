(** Lengths and times in another unit: the step of size [lam * dt] on cells of size [lam * dx], with sources [lam] times as weak, is
    the step of size [dt] on cells of size [dx]. *)
From Coq Require Import Reals Lia Lra FunctionalExtensionality.
From Verif Require Import Base Options Sum EqModel FvModel FvBody WenoModel DgModel GridModel StepperModel AderModel HomogModel UtilsModel IterModel StepperProps RunModel.
Import List ListNotations.
Open Scope R_scope.

(** the material whose sources are [lam] times as weak, all else equal *)
Definition weaker (lam : R) (ph : phys) : phys :=
  mkphys (pressure ph) (sigma ph) (temperature ph) (calpha2 ph) (fun q k => source ph q k / lam) (max_abs_eigs ph) (jacobian ph) (eigabs ph).

Lemma collect_ext {A} n (f f' : nat -> res A) : (forall s, f s = f' s) -> collect n f = collect n f'.
Proof. intros H. induction n as [|n IH]; cbn [collect]; [reflexivity|]. rewrite IH, H. reflexivity. Qed.
Lemma bind_ext {A B} (a : res A) (f f' : A -> res B) : (forall x, f x = f' x) -> bind a f = bind a f'.
Proof. intros H. destruct a; cbn [bind]; auto. Qed.
Lemma rows_ext n f f' : (forall s, f s = f' s) -> rows n f = rows n f'.
Proof. intros H. unfold rows. rewrite (collect_ext _ _ _ H). reflexivity. Qed.
Lemma vsum_ext n (f f' : nat -> res vec) : (forall s, f s = f' s) -> vsum n f = vsum n f'.
Proof. intros H. replace f' with f; [reflexivity|]. apply functional_extensionality. exact H. Qed.

Section Scale.
Variable lam : R.
Hypothesis L : lam <> 0.
Variable o : options.
Variable ph : phys.
Notation ph' := (weaker lam ph).
Variables NODES WGHTS : nat -> R.
Variables ENDVALS DERVALS : nat -> nat -> R.

Lemma cancel w x dx : lam * w * (x / (lam * dx)) = w * (x / dx).
Proof using L. unfold Rdiv. rewrite Rinv_mult. generalize (/ dx). intros h. field. exact L. Qed.
Lemma cancel1 x dx : lam * (x / (lam * dx)) = x / dx.
Proof using L. replace lam with (lam * 1) at 1 by ring. rewrite cancel. ring. Qed.
Lemma cancel2 x dx c : lam * x / (c * (lam * dx)) = x / (c * dx).
Proof using L. unfold Rdiv. rewrite !Rinv_mult. generalize (/ dx) (/ c). intros h k. field. exact L. Qed.
Lemma wt_scale TIME dt t : wt WGHTS TIME (lam * dt) t = lam * wt WGHTS TIME dt t.
Proof using. unfold wt. destruct TIME; ring. Qed.

Lemma center1_scale SOURCES TIME dt dx t q : center1 o ph' WGHTS DERVALS SOURCES TIME (lam * dt) (lam * dx) t q = center1 o ph WGHTS DERVALS SOURCES TIME dt dx t q.
Proof using L.
  unfold center1. apply collect_ext. intros s. apply bind_ext. intros x. do 2 f_equal. apply functional_extensionality. intros k. rewrite wt_scale. unfold S0. cbn [source weaker].
  assert (E : forall S' S0 : R, lam * S' = S0 -> lam * wt WGHTS TIME dt t * WGHTS s * (S' - x k / (lam * dx)) = wt WGHTS TIME dt t * WGHTS s * (S0 - x k / dx)).
  { intros S' S0 H. rewrite <- H, <- (cancel1 (x k) dx). ring. }
  apply E. destruct SOURCES; [field; exact L|ring].
Qed.
Lemma center2_scale SOURCES TIME dt dx dy t q : center2 o ph' WGHTS DERVALS SOURCES TIME (lam * dt) (lam * dx) (lam * dy) t q = center2 o ph WGHTS DERVALS SOURCES TIME dt dx dy t q.
Proof using L.
  unfold center2. apply collect_ext. intros s. apply bind_ext. intros x. apply bind_ext. intros y. do 2 f_equal. apply functional_extensionality. intros k. rewrite wt_scale. unfold S0. cbn [source weaker].
  assert (E : forall w S' S0 : R, lam * S' = S0 -> lam * wt WGHTS TIME dt t * WGHTS (s / N o) * w * (S' - x k / (lam * dx) - y k / (lam * dy)) = wt WGHTS TIME dt t * WGHTS (s / N o) * w * (S0 - x k / dx - y k / dy)).
  { intros w S' S0 H. rewrite <- H, <- (cancel1 (x k) dx), <- (cancel1 (y k) dy). ring. }
  apply E. destruct SOURCES; [field; exact L|ring].
Qed.
Lemma face1_scale TIME FLUX dt dx d t l r : face1 o ph' NODES WGHTS ENDVALS TIME FLUX (lam * dt) (lam * dx) d t l r = face1 o ph NODES WGHTS ENDVALS TIME FLUX dt dx d t l r.
Proof using L. unfold face1. rewrite wt_scale, cancel2. reflexivity. Qed.
Lemma face2_scale TIME FLUX dt dx dy d t l r : face2 o ph' NODES WGHTS ENDVALS TIME FLUX (lam * dt) (lam * dx) (lam * dy) d t l r = face2 o ph NODES WGHTS ENDVALS TIME FLUX dt dx dy d t l r.
Proof using L. unfold face2. rewrite wt_scale. destruct d; rewrite cancel2; reflexivity. Qed.

Lemma mid1_scale dt dX dX' w : dX' 0%nat = lam * dX 0%nat -> mid1 o ph' DERVALS (lam * dt) dX' w = mid1 o ph DERVALS dt dX w.
Proof using L.
  intros H. unfold mid1. apply rows_ext. intros a. apply bind_ext. intros x. f_equal. apply functional_extensionality. intros k. rewrite H. f_equal.
  change (flux o ph') with (flux o ph). set (X := (_ + _)). unfold Rdiv. rewrite Rinv_mult. generalize (/ dX 0%nat). intros h. field. exact L.
Qed.
Lemma mid2_scale dt dX dX' w : dX' 0%nat = lam * dX 0%nat -> dX' 1%nat = lam * dX 1%nat -> mid2 o ph' DERVALS (lam * dt) dX' w = mid2 o ph DERVALS dt dX w.
Proof using L.
  intros H H1. unfold mid2. apply rows_ext. intros a. apply bind_ext. intros x. apply bind_ext. intros y. f_equal. apply functional_extensionality. intros k. rewrite H, H1. f_equal.
  change (flux o ph') with (flux o ph). unfold Rdiv. rewrite !Rinv_mult. generalize (/ dX 0%nat) (/ dX 1%nat). intros h h'. field. exact L.
Qed.

(** the nonconservative products are linear in the derivative *)
Lemma Bdot_div q x c d : Bdot o q (fun k => x k / c) d = (r <- Bdot o q x d ;; Ok (fun k => r k / c)).
Proof using.
  clear L. unfold Bdot. destruct (VISCOUS o); [|reflexivity]. destruct d as [|[|[|d]]]; cbn [bind]; try reflexivity; f_equal; apply functional_extensionality; intros k;
    unfold B0dot, B1dot, B2dot, level_sets, Rdiv; do 14 (destruct k as [|k]; [try (match goal with |- context [if ?b then _ else _] => destruct b end); ring|]);
    match goal with |- context [if ?b then _ else _] => destruct b end; ring.
Qed.
Lemma Bdot_scale q x dx d : Bdot o q (fun k => x k / (lam * dx)) d = (r <- Bdot o q (fun k => x k / dx) d ;; Ok (fun k => r k / lam)).
Proof using L.
  rewrite <- Bdot_div. f_equal. apply functional_extensionality. intros k. unfold Rdiv. rewrite Rinv_mult. ring.
Qed.
Lemma rhs1_scale DG_DER dt dx q Ww : rhs1 o ph' WGHTS DERVALS DG_DER (lam * dt) (lam * dx) q Ww = rhs1 o ph WGHTS DERVALS DG_DER dt dx q Ww.
Proof using L.
  unfold rhs1. apply rows_ext. intros i. cbv zeta. rewrite Bdot_scale. destruct (Bdot _ _ _ _) as [r| | |]; cbn [bind]; try reflexivity. f_equal. apply functional_extensionality. intros k.
  change (flux o ph') with (flux o ph). cbn [source weaker]. f_equal. set (F := rsum _ _). unfold Rdiv. rewrite Rinv_mult. generalize (/ dx). intros h. field. exact L.
Qed.
Lemma rsum_div n (f : nat -> R) c : rsum n (fun i => f i / c) = rsum n f / c.
Proof using. clear L. induction n as [|n IH]; cbn [rsum]; [unfold Rdiv; ring|]. rewrite IH. unfold Rdiv. ring. Qed.
Lemma rhs2_scale DG_DER dt dx dy q Ww : rhs2 o ph' WGHTS DERVALS DG_DER (lam * dt) (lam * dx) (lam * dy) q Ww = rhs2 o ph WGHTS DERVALS DG_DER dt dx dy q Ww.
Proof using L.
  unfold rhs2. apply rows_ext. intros i. cbv zeta. rewrite !Bdot_scale. destruct (Bdot _ _ _ 0) as [r| | |]; cbn [bind]; try reflexivity. destruct (Bdot _ _ _ 1) as [r'| | |]; cbn [bind]; try reflexivity.
  f_equal. apply functional_extensionality. intros k. change (flux o ph') with (flux o ph). cbn [source weaker]. f_equal. rewrite !rsum_div. set (F := rsum _ _). set (G := rsum _ _). unfold Rdiv. rewrite !Rinv_mult. generalize (/ dx) (/ dy). intros h h'. field. exact L.
Qed.
Definition stretched (n : nat) (dX dX' : nat -> R) : Prop := forall d, (d < n)%nat -> dX' d = lam * dX d.
Lemma rhs_scale DG_DER dt dX dX' n q Ww : n = 1%nat \/ n = 2%nat -> stretched n dX dX' -> rhs o ph' WGHTS DERVALS DG_DER (lam * dt) dX' n q Ww = rhs o ph WGHTS DERVALS DG_DER dt dX n q Ww.
Proof using L. intros [->| ->] H; unfold rhs; rewrite !H by lia; [apply rhs1_scale|apply rhs2_scale]. Qed.
Lemma obj_scale DG_DER DG_M dt dX dX' n Ww q : n = 1%nat \/ n = 2%nat -> stretched n dX dX' -> obj o ph' WGHTS DERVALS DG_DER DG_M (lam * dt) dX' n Ww q = obj o ph WGHTS DERVALS DG_DER DG_M dt dX n Ww q.
Proof using L. intros [->| ->] H; unfold obj, obj1, obj2; rewrite !H by lia; [rewrite rhs1_scale|rewrite rhs2_scale]; reflexivity. Qed.
(** the predictor of the code *)
Lemma Phi_scale DG_DER DG_M dt dX dX' DG_IT DG_TOL solve nonlin_solve valid nan_far STIFF STIFF_IG n l : n = 1%nat \/ n = 2%nat -> stretched n dX dX' ->
  Phi o ph' WGHTS ENDVALS DERVALS DG_DER DG_M (lam * dt) dX' DG_IT DG_TOL solve nonlin_solve valid nan_far STIFF STIFF_IG n l
  = Phi o ph WGHTS ENDVALS DERVALS DG_DER DG_M dt dX DG_IT DG_TOL solve nonlin_solve valid nan_far STIFF STIFF_IG n l.
Proof using L.
  intros Hn H. unfold Phi, predictor_cell.
  assert (R : rhs o ph' WGHTS DERVALS DG_DER (lam * dt) dX' n = rhs o ph WGHTS DERVALS DG_DER dt dX n).
  { do 2 (apply functional_extensionality; intros ?). apply rhs_scale; assumption. }
  assert (Q : obj o ph' WGHTS DERVALS DG_DER DG_M (lam * dt) dX' n = obj o ph WGHTS DERVALS DG_DER DG_M dt dX n).
  { do 2 (apply functional_extensionality; intros ?). apply obj_scale; assumption. }
  rewrite R, Q. reflexivity.
Qed.
Lemma center_scale dt dX dX' n SOURCES TIME : n = 1%nat \/ n = 2%nat -> stretched n dX dX' ->
  center_num o ph' WGHTS DERVALS (lam * dt) dX' n SOURCES TIME = center_num o ph WGHTS DERVALS dt dX n SOURCES TIME.
Proof using L.
  intros Hn H. do 2 (apply functional_extensionality; intros ?). unfold center_num. destruct x0 as [q|]; [|reflexivity]. destruct Hn as [->| ->]; rewrite !H by lia; [rewrite center1_scale|rewrite center2_scale]; reflexivity.
Qed.
Lemma face_scale FLUX dt dX dX' n TIME : n = 1%nat \/ n = 2%nat -> stretched n dX dX' ->
  face_num o ph' NODES WGHTS ENDVALS FLUX (lam * dt) dX' n TIME = face_num o ph NODES WGHTS ENDVALS FLUX dt dX n TIME.
Proof using L.
  intros Hn H. do 4 (apply functional_extensionality; intros ?). unfold face_num. destruct x1 as [q|]; [|reflexivity]. destruct x2 as [q'|]; [|reflexivity]. destruct Hn as [->| ->]; rewrite !H by lia; [rewrite face1_scale|rewrite face2_scale]; reflexivity.
Qed.
Lemma mid_scale dt dX dX' valid n : n = 1%nat \/ n = 2%nat -> stretched n dX dX' -> mid o ph' DERVALS (lam * dt) dX' valid n = mid o ph DERVALS dt dX valid n.
Proof using L.
  intros Hn H. apply functional_extensionality. intros l. unfold mid. destruct (view l) as [w|]; [|reflexivity]. destruct (valid w); [|reflexivity]. destruct Hn as [->| ->]; [rewrite (mid1_scale dt dX dX')|rewrite (mid2_scale dt dX dX')]; try reflexivity; apply H; lia.
Qed.
End Scale.

(** ** The parallel steppers use the functions handed over only for the dimension of the grid *)
Section Cong.
Variables (N : nat) (SIG : nat -> nat -> R) (LAMS LAMC EPS : R) (inv : stencil -> (nat -> R) -> nat -> R).
Variable prim : option ((num -> num) * (num -> num)).
Variable nc : bool.
Variable blk : Type.
Variables center center' : nat -> bool -> nat -> blk -> res (list (num -> num)).
Variables face face' : nat -> bool -> nat -> nat -> blk -> blk -> res ((num -> num) * (num -> num)).
Variables Phi Phi' : nat -> list num -> res (option (nat -> blk)).
Variable view : list num -> blk.
Variables mid mid' : nat -> list num -> res blk.
Variable ode : num -> num.
Variable nX : list nat.
Notation nd := (length nX).
Hypothesis Hf : face' nd = face nd.
Lemma gather_ops_ext {A} (f f' : nat -> res A) n : (forall t, f t = f' t) -> forall t, gather_ops f n t = gather_ops f' n t.
Proof using. intros H. induction n as [|n IH]; intros t; cbn [gather_ops]; [reflexivity|]. rewrite H. apply bind_ext. intros l. rewrite IH. reflexivity. Qed.
Lemma thread_ext ser ser' (ulen : nat) (ub : buf num) (mask : buf bool) n t : (forall ulen ub mask nY, length nY = nd -> ser ulen ub mask nY = ser' ulen ub mask nY) ->
  thread_updates N ser ulen ub mask nX n t = thread_updates N ser' ulen ub mask nX n t.
Proof using.
  clear Hf. intros H. unfold thread_updates. destruct nX as [|nx rest] eqn:E; [reflexivity|]. destruct (Nat.eqb nx 0); [reflexivity|]. cbv zeta. destruct (Nat.ltb _ _); [reflexivity|].
  apply bind_ext. intros a. apply bind_ext. intros b. rewrite H by reflexivity. reflexivity.
Qed.
Lemma split_para_cong HALF n sched (u ub : buf num) mask : center' nd false = center nd false -> mid' nd = mid nd ->
  split_para N SIG LAMS LAMC EPS inv prim nc blk center' face' view mid' ode HALF n sched u ub mask nX
  = split_para N SIG LAMS LAMC EPS inv prim nc blk center face view mid ode HALF n sched u ub mask nX.
Proof using Hf.
  intros Hc Hm. unfold split_para, para. rewrite (gather_ops_ext _ (split_thread N SIG LAMS LAMC EPS inv prim nc blk center face view mid ode HALF (blen u) ub mask nX n)); [reflexivity|].
  intros t. unfold split_thread. apply thread_ext. intros ulen b k nY E. unfold split_updates, midstepper. rewrite E, Hc, Hf, Hm. reflexivity.
Qed.
Lemma ader_para_cong n sched (u ub : buf num) mask : center' nd true = center nd true -> Phi' nd = Phi nd ->
  ader_para N SIG LAMS LAMC EPS inv prim nc blk center' face' Phi' n sched u ub mask nX
  = ader_para N SIG LAMS LAMC EPS inv prim nc blk center face Phi n sched u ub mask nX.
Proof using Hf.
  intros Hc Hm. unfold ader_para, para. rewrite (gather_ops_ext _ (ader_thread N SIG LAMS LAMC EPS inv prim nc blk center face Phi (blen u) ub mask nX n)); [reflexivity|].
  intros t. unfold ader_thread. apply thread_ext. intros ulen b k nY E. unfold ader_updates, predictor. rewrite E, Hc, Hf, Hm. reflexivity.
Qed.
End Cong.
