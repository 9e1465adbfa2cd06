(** The correction of lgmres minimises the residual over its search space. *)
From Coq Require Import Reals Lra Psatz Lia.
From Verif Require Import Base Sum KrylovModel KrylovSpec KrylovProof KrylovProof2 KrylovProof3.
Import List ListNotations.
Open Scope R_scope.

(** ** triangular systems *)
Lemma upper_solve q : forall T g, (forall r c, (r < q)%nat -> (c < r)%nat -> T r c = 0) -> (forall c, (c < q)%nat -> T c c <> 0) ->
  exists y : nat -> R, (forall r, (r < q)%nat -> rsum q (fun k => T r k * y k) = g r) /\ (forall k, (q <= k)%nat -> y k = 0).
Proof.
  induction q as [|q IH]; intros T g HT HD; [exists (fun _ => 0); split; [intros r Hr; lia|reflexivity]|].
  destruct (IH T (fun r => g r - T r q * (g q / T q q))) as [y [HY HZ]]; [intros; apply HT; lia|intros; apply HD; lia|].
  exists (fun k => if Nat.eqb k q then g q / T q q else y k). split.
  - intros r Hr. cbn [rsum]. rewrite Nat.eqb_refl. rewrite (rsum_ext q _ (fun k => T r k * y k)) by (intros k Hk; destruct (Nat.eqb_spec k q); [lia|reflexivity]).
    destruct (Nat.eq_dec r q) as [->|N]; [rewrite rsum_zero; [field; apply HD; lia|intros k Hk; rewrite HT by lia; ring]|]. rewrite HY by lia. ring.
  - intros k Hk. destruct (Nat.eqb_spec k q); [lia|]. apply HZ. lia.
Qed.
Lemma diag_nonzero q T : (forall r c, (r < q)%nat -> (c < r)%nat -> T r c = 0) ->
  (forall y : nat -> R, (forall r, (r < q)%nat -> rsum q (fun k => T r k * y k) = 0) -> forall k, (k < q)%nat -> y k = 0) -> forall c, (c < q)%nat -> T c c <> 0.
Proof.
  intros HT HI c. induction c as [c IH] using lt_wf_ind. intros Hc Z.
  destruct (upper_solve c T (fun r => - T r c)) as [y [HY HZ]]; [intros; apply HT; lia|intros; apply IH; lia|].
  set (y' := fun k => if Nat.eqb k c then 1 else y k). assert (P : y' c = 0); [|unfold y' in P; rewrite Nat.eqb_refl in P; lra]. apply HI; [|exact Hc]. intros r Hr.
  assert (E : rsum q (fun k => T r k * y' k) = rsum c (fun k => T r k * y k) + T r c).
  { replace q with (S c + (q - S c))%nat by lia. rewrite rsum_split. cbn [rsum]. rewrite (rsum_zero (q - S c)). 2:{ intros i Hi. unfold y'. destruct (Nat.eqb_spec (S c + i) c); [lia|]. rewrite HZ by lia. ring. }
    rewrite (rsum_ext c _ (fun k => T r k * y k)) by (intros k Hk; unfold y'; destruct (Nat.eqb_spec k c); [lia|reflexivity]). unfold y'. rewrite Nat.eqb_refl. ring. }
  rewrite E. destruct (Nat.lt_ge_cases r c) as [L|L]; [rewrite HY by exact L; ring|]. rewrite rsum_zero by (intros k Hk; rewrite HT by lia; ring).
  destruct (Nat.eq_dec r c) as [->|N]; [rewrite Z; ring|]. rewrite HT by lia. ring.
Qed.

Section Dim.
Variable n : nat.
Notation vdot := (vdot n).
Notation vnorm := (vnorm n).
Notation orthonormal := (orthonormal n).

(** ** no more orthonormal vectors than dimensions *)
Lemma dot_unit i V : (i < n)%nat -> vdot V (delta i) = V i.
Proof. intros Hi. unfold KrylovModel.vdot. rewrite (rsum_single n i); [rewrite delta_same; ring|exact Hi|]. intros j _ N. rewrite delta_other by auto. ring. Qed.
Lemma bessel k V i : orthonormal k V -> (i < n)%nat -> rsum k (fun r => V r i * V r i) <= 1.
Proof.
  intros O Hi. set (u := lincomb k (fun r => V r i) V). assert (P := vdot_nonneg n (vsub (delta i) u)).
  assert (U : vdot u (delta i) = rsum k (fun r => V r i * V r i)) by (rewrite dot_comm; unfold u; rewrite dot_lin_r; apply rsum_ext; intros r _; rewrite dot_comm, dot_unit by exact Hi; reflexivity).
  assert (UU : vdot u u = rsum k (fun r => V r i * V r i)) by (apply norm_lin, O).
  rewrite dot_sub_r, (dot_comm _ (vsub _ _) (delta i)), (dot_comm _ (vsub _ _) u), !dot_sub_r in P. rewrite (dot_comm _ (delta i) u), U, UU, dot_unit, delta_same in P by exact Hi. lra.
Qed.
Lemma orth_max k V : orthonormal k V -> (k <= n)%nat.
Proof.
  intros O. apply INR_le. assert (E : rsum k (fun r => vdot (V r) (V r)) = INR k).
  { rewrite (rsum_ext k _ (fun _ => 1)) by (intros r Hr; rewrite O, delta_same by exact Hr; reflexivity). rewrite rsum_const. ring. }
  rewrite <- E. unfold KrylovModel.vdot. rewrite rsum_swap. replace (INR n) with (rsum n (fun _ => 1)) by (rewrite rsum_const; ring). apply rsum_le. intros i Hi. apply bessel; assumption.
Qed.

(** ** spans *)
Lemma span_member k V r : (r < k)%nat -> inspan n k V (V r).
Proof. intros Hr. exists (delta r). intros i _. unfold lincomb. rewrite (rsum_single k r); [rewrite delta_same; ring|exact Hr|]. intros s _ N. rewrite delta_other by auto. ring. Qed.
Lemma span_mono k k' V z : (k <= k')%nat -> inspan n k V z -> inspan n k' V z.
Proof.
  intros H [c Hc]. exists (fun r => if Nat.ltb r k then c r else 0). intros i Hi. rewrite Hc by exact Hi. unfold lincomb. replace k' with (k + (k' - k))%nat by lia. rewrite rsum_split, (rsum_zero (k' - k)).
  - rewrite Rplus_0_r. apply rsum_ext. intros r Hr. destruct (Nat.ltb_spec r k); [reflexivity|lia].
  - intros r _. destruct (Nat.ltb_spec (k + r) k); [lia|ring].
Qed.
Lemma span_lin m k V Z c : (forall r, (r < m)%nat -> inspan n k V (Z r)) -> inspan n k V (lincomb m c Z).
Proof.
  induction m as [|m IH]; intros H; [exists (fun _ => 0); intros i _; unfold lincomb; cbn; symmetry; apply rsum_zero; intros; ring|].
  destruct (IH ltac:(intros; apply H; lia)) as [a Ha]. destruct (H m ltac:(lia)) as [b Hb]. exists (fun r => a r + c m * b r). intros i Hi. specialize (Ha i Hi). specialize (Hb i Hi). unfold lincomb in *. cbn [rsum]. rewrite Ha, Hb, <- rsum_scal, <- rsum_plus. apply rsum_ext. intros. ring.
Qed.
Lemma span_ext k V z z' : (forall i, (i < n)%nat -> z' i = z i) -> inspan n k V z -> inspan n k V z'.
Proof. intros H [c Hc]. exists c. intros i Hi. rewrite H, Hc by exact Hi. reflexivity. Qed.
Lemma span_scal k V a z : inspan n k V z -> inspan n k V (vscal a z).
Proof. intros [c Hc]. exists (fun r => a * c r). intros i Hi. unfold vscal. rewrite Hc by exact Hi. unfold lincomb. rewrite <- rsum_scal. apply rsum_ext. intros. ring. Qed.
Lemma span_sub k V a b : inspan n k V a -> inspan n k V b -> inspan n k V (vsub a b).
Proof. intros [c Hc] [d Hd]. exists (fun r => c r - d r). intros i Hi. unfold vsub. rewrite Hc, Hd by exact Hi. unfold lincomb. rewrite <- rsum_minus. apply rsum_ext. intros. ring. Qed.
Lemma span_trans k V m Z z : (forall r, (r < m)%nat -> inspan n k V (Z r)) -> inspan n m Z z -> inspan n k V z.
Proof. intros H [c Hc]. apply (span_ext k V (lincomb m c Z)); [exact Hc|]. apply span_lin, H. Qed.

Section Arn.
Variables matvec psolve : dv -> dv.
Variable qr : nat -> nat -> dmat -> dmat * dmat.
Variable lsolve : nat -> dmat -> dv -> dv.
Variable junk : dv.
Hypothesis HM : is_matrix n matvec.
Hypothesis HP : is_matrix n psolve.
Hypothesis HQ : qr_ok qr.
Hypothesis HL : lsq_ok lsolve.
Notation inner_step := (inner_step n matvec psolve qr junk).
Notation inner := (inner n matvec psolve qr junk).
Notation correction := (correction n matvec psolve qr lsolve junk).
Notation B v := (psolve (matvec v)).
Notation Bf := (fun v => psolve (matvec v)).
Notation arn := (arn n matvec psolve).

Lemma HB : is_matrix n Bf.
Proof. apply mat_comp; assumption. Qed.
Lemma hess_mul vs0 q st y r : arn vs0 q st -> rsum q (fun c => hess q st r c * y c) = rsum (S q) (fun k => aQ st r k * rsum q (fun c => aR st k c * y c)).
Proof.
  intros _. unfold hess. transitivity (rsum q (fun c => rsum (S q) (fun k => aQ st r k * aR st k c * y c))); [apply rsum_ext; intros c _; rewrite rsum_scal_r; reflexivity|].
  rewrite rsum_swap. apply rsum_ext. intros k _. rewrite <- rsum_scal. apply rsum_ext. intros. ring.
Qed.
(** the basis is orthonormal, but for the last vector when its row of the Hessenberg matrix vanishes *)
Definition basis (q : nat) (st : arnoldi) : Prop :=
  orthonormal (S q) (vec (avs st)) \/ (orthonormal q (vec (avs st)) /\ (1 <= q)%nat /\ forall c, (c < q)%nat -> hess q st q c = 0).
(** the norm of the residual of any point of the search space *)
Lemma residual_norm vs0 q st res0 u c : arn vs0 q st -> basis q st -> (forall i, (i < n)%nat -> u i = - (res0 * vs0 i)) ->
  vdot (vadd u (B (lincomb q c (vec (aws st))))) (vadd u (B (lincomb q c (vec (aws st))))) =
  misfit q (aR st) (fun k => res0 * aQ st 0%nat k) c + (res0 * aQ st 0%nat q) * (res0 * aQ st 0%nat q).
Proof.
  intros I HB' HU. set (t := fun r => rsum q (fun k => hess q st r k * c k) - res0 * delta 0 r).
  assert (E : forall i, (i < n)%nat -> vadd u (B (lincomb q c (vec (aws st)))) i = lincomb (S q) t (vec (avs st)) i).
  { intros i Hi. unfold vadd. rewrite (mat_lin n Bf q c (vec (aws st)) HB i Hi), HU by exact Hi. unfold lincomb, t.
    rewrite (rsum_ext (S q) (fun r => (rsum q (fun k => hess q st r k * c k) - res0 * delta 0 r) * vec (avs st) r i) (fun r => rsum q (fun k => hess q st r k * c k) * vec (avs st) r i - res0 * delta 0 r * vec (avs st) r i)) by (intros; ring). rewrite rsum_minus. rewrite (rsum_single (S q) 0 (fun r => res0 * delta 0 r * vec (avs st) r i)); [|lia|intros s _ N; rewrite delta_other by auto; ring].
    rewrite delta_same, (ar_0 _ _ _ _ _ _ I). rewrite (rsum_ext q (fun r => c r * psolve (matvec (vec (aws st) r)) i) (fun k => rsum (S q) (fun r => hess q st r k * c k * vec (avs st) r i))).
    - rewrite rsum_swap. rewrite (rsum_ext (S q) (fun r => rsum q (fun k => hess q st r k * c k * vec (avs st) r i)) (fun r => rsum q (fun k => hess q st r k * c k) * vec (avs st) r i)) by (intros; apply rsum_scal_r). ring.
    - intros k Hk. rewrite (ar_rel _ _ _ _ _ _ I k i Hk Hi), <- rsum_scal. apply rsum_ext. intros. ring. }
  rewrite (dot_ext n _ _ _ _ E E). assert (N : vdot (lincomb (S q) t (vec (avs st))) (lincomb (S q) t (vec (avs st))) = rsum (S q) (fun r => t r * t r)).
  { destruct HB' as [O|[O [Q1 Z]]]; [apply norm_lin, O|]. assert (TZ : t q = 0). { unfold t. rewrite delta_other by lia. rewrite rsum_zero; [ring|]. intros k Hk. rewrite Z by exact Hk. ring. }
    cbn [rsum]. rewrite TZ. rewrite <- (norm_lin n q t (vec (avs st)) O). rewrite Rmult_0_l, Rplus_0_r. apply dot_ext; intros i _; unfold lincomb; cbn [rsum]; rewrite TZ; ring. }
  rewrite N. set (w := fun k => rsum q (fun l => aR st k l * c l) - res0 * aQ st 0%nat k).
  assert (TW : forall r, (r < S q)%nat -> t r = lincomb (S q) w (fun k r => aQ st r k) r).
  { intros r Hr. unfold t, lincomb, w. rewrite (hess_mul vs0) by exact I. destruct (ar_Qo _ _ _ _ _ _ I 0%nat r ltac:(lia) Hr) as [_ O2]. rewrite <- O2, <- rsum_scal, <- rsum_minus. apply rsum_ext. intros. ring. }
  transitivity (rsum (S q) (fun r => w r * w r)).
  - rewrite <- (norm_lin (S q) (S q) w (fun k r => aQ st r k)); [apply rsum_ext; intros r Hr; rewrite !TW by exact Hr; reflexivity|]. intros r s Hr Hs. apply (ar_Qo _ _ _ _ _ _ I r s Hr Hs).
  - cbn [rsum]. unfold misfit, w. f_equal. rewrite rsum_zero by (intros l Hl; rewrite (ar_Rz _ _ _ _ _ _ I) by lia; ring). ring.
Qed.
Lemma misfit_scal q T g y a : misfit q T (fun k => a * g k) (vscal a y) = a * a * misfit q T g y.
Proof.
  unfold misfit. rewrite <- rsum_scal. apply rsum_ext. intros r _. assert (E : rsum q (fun k => T r k * vscal a y k) = a * rsum q (fun k => T r k * y k)) by (rewrite <- rsum_scal; apply rsum_ext; intros; unfold vscal; ring). rewrite E. ring.
Qed.
Lemma misfit_nonneg q T g y : 0 <= misfit q T g y.
Proof. apply rsum_nonneg. intros. apply Rle_0_sqr. Qed.
Lemma misfit_min q T g c a : a <> 0 -> misfit q T (fun k => a * g k) (vscal a (lsolve q T g)) <= misfit q T (fun k => a * g k) c.
Proof.
  intros A. rewrite misfit_scal. replace (misfit q T (fun k => a * g k) c) with (a * a * misfit q T g (vscal (/ a) c)).
  - apply Rmult_le_compat_l; [apply Rle_0_sqr|apply HL].
  - rewrite <- misfit_scal. unfold misfit. apply rsum_ext. intros r _. assert (E : rsum q (fun k => T r k * vscal a (vscal (/ a) c) k) = rsum q (fun k => T r k * c k)) by (apply rsum_ext; intros k _; unfold vscal; field; exact A). rewrite E. reflexivity.
Qed.
(** an invertible triangle: the system is solved *)
Lemma misfit_solved vs0 q st y0 : arn vs0 q st -> (forall c, (c < q)%nat -> aR st c c <> 0) -> misfit q (aR st) y0 (lsolve q (aR st) y0) = 0.
Proof.
  intros I D. destruct (upper_solve q (aR st) y0) as [y [HY _]]; [intros; apply (ar_Rz _ _ _ _ _ _ I); lia|exact D|]. apply Rle_antisym; [|apply misfit_nonneg]. eapply Rle_trans; [apply (HL _ _ _ y)|].
  right. apply rsum_zero. intros r Hr. rewrite HY by exact Hr. ring.
Qed.
Lemma hess_inj vs0 q st : arn vs0 q st -> (forall c, (c < q)%nat -> hess q st (S c) c <> 0) -> forall y, (forall r, (r < S q)%nat -> rsum q (fun c => hess q st r c * y c) = 0) -> forall c, (c < q)%nat -> y c = 0.
Proof.
  intros I SD y HY c. remember (q - c)%nat as d eqn:ED. revert c ED. induction d as [d IH] using lt_wf_ind. intros c ED Hc.
  assert (E := HY (S c) ltac:(lia)). rewrite (rsum_single q c) in E; [|exact Hc|].
  - apply Rmult_integral in E. destruct E as [E|E]; [elim (SD c Hc E)|exact E].
  - intros k Hk N. destruct (Nat.lt_ge_cases k c); [rewrite (ar_hes _ _ _ _ _ _ I) by lia; ring|]. rewrite (IH (q - k)%nat ltac:(lia) k eq_refl Hk). ring.
Qed.
Lemma tri_inj vs0 q st : arn vs0 q st -> (forall y, (forall r, (r < S q)%nat -> rsum q (fun c => hess q st r c * y c) = 0) -> forall c, (c < q)%nat -> y c = 0) -> forall c, (c < q)%nat -> aR st c c <> 0.
Proof.
  intros I HI. apply diag_nonzero; [intros; apply (ar_Rz _ _ _ _ _ _ I); lia|]. intros y HY. apply HI. intros r Hr. rewrite (hess_mul vs0) by exact I. apply rsum_zero. intros k Hk.
  destruct (Nat.eq_dec k q) as [->|N]; [rewrite (rsum_zero q) by (intros l Hl; rewrite (ar_Rz _ _ _ _ _ _ I) by lia; ring); ring|]. rewrite HY by lia. ring.
Qed.
(** an exact breakdown with an invertible triangle: the estimate of the residual is zero *)
Lemma breakdown_zero vs0 q st : arn vs0 q st -> (1 <= q)%nat -> (forall c, (c < q)%nat -> hess q st q c = 0) -> (forall c, (c < q)%nat -> aR st c c <> 0) -> aQ st 0%nat q = 0.
Proof.
  intros I Q1 Z D. assert (RZ : forall c, (c < q)%nat -> aQ st q c = 0).
  { intros c. induction c as [c IH] using lt_wf_ind. intros Hc. specialize (Z c Hc). unfold hess in Z. rewrite (rsum_single (S q) c) in Z; [|lia|].
    - apply Rmult_integral in Z. destruct Z as [Z|Z]; [exact Z|elim (D c Hc Z)].
    - intros k Hk N. destruct (Nat.lt_ge_cases k c); [rewrite IH by lia; ring|]. rewrite (ar_Rz _ _ _ _ _ _ I k c) by lia. ring. }
  destruct (ar_Qo _ _ _ _ _ _ I q q ltac:(lia) ltac:(lia)) as [_ N]. rewrite delta_same in N. cbn [rsum] in N. rewrite rsum_zero in N by (intros k Hk; rewrite RZ by exact Hk; ring).
  destruct (ar_Qo _ _ _ _ _ _ I 0%nat q ltac:(lia) ltac:(lia)) as [_ X]. rewrite delta_other in X by lia. cbn [rsum] in X. rewrite rsum_zero in X by (intros k Hk; rewrite (RZ k) by exact Hk; ring).
  assert (P : aQ st 0%nat q * aQ st q q = 0) by lra. apply Rmult_integral in P. destruct P as [P|P]; [exact P|]. rewrite P in N. lra.
Qed.

(** ** the inner loop *)
(** which vectors span the search space *)
Definition picks (ov : list dv) (vs0 : dv) (q : nat) (st : arnoldi) : Prop :=
  forall i, (i < q)%nat -> vec (aws st) i = if Nat.ltb i (List.length ov) then vec ov i else if Nat.eqb i (List.length ov) then vs0 else vec (avs st) i.
Record going (ov : list dv) (vs0 : dv) (q : nat) (st : arnoldi) : Prop := mkgo {
  go_arn : arn vs0 q st; go_o : orthonormal (S q) (vec (avs st)); go_sub : forall c, (c < q)%nat -> hess q st (S c) c <> 0; go_p : picks ov vs0 q st }.
Record ended (ov : list dv) (vs0 : dv) (q : nat) (st : arnoldi) : Prop := mkend {
  en_arn : arn vs0 q st; en_b : basis q st; en_sub : forall c, (S c < q)%nat -> hess q st (S c) c <> 0; en_p : picks ov vs0 q st;
  en_o : orthonormal q (vec (avs st)) }.
Lemma going_ended ov vs0 q st : going ov vs0 q st -> ended ov vs0 q st.
Proof. intros [A O S0 P]. constructor; [exact A|left; exact O|intros c Hc; apply S0; lia|exact P|intros r s Hr Hs; apply O; lia]. Qed.
Lemma last_vec vs (d : dv) : forall q, List.length vs = S q -> last vs d = vec vs q.
Proof. induction vs as [|v vs IH]; intros q H; [discriminate|]. destruct vs as [|w vs]; [cbn in H; injection H as <-; reflexivity|]. destruct q as [|q]; [discriminate|]. change (last (v :: w :: vs) d) with (last (w :: vs) d). rewrite (IH q) by (cbn in *; lia). reflexivity. Qed.
Lemma step_going ov vs0 q st st' hj vn : going ov vs0 q st -> inner_step ov vs0 st (S q) = (st', hj, vn) ->
  ended ov vs0 (S q) st' /\ (hj <> 0 -> going ov vs0 (S q) st') /\ hess (S q) st' (S q) q = hj /\ 0 <= hj /\ 0 <= vn /\ vn = vnorm (B (vec (aws st') q)).
Proof.
  intros [A O SD P] E. assert (E0 := E). destruct (step_arn n matvec psolve qr junk HQ ov vs0 q st st' hj vn A O E) as [A' [O1 [O2 [H0 [V0 [HJ [HC [[x EA] EW]]]]]]]].
  assert (LW := ar_ws _ _ _ _ _ _ A). assert (LV := ar_vs _ _ _ _ _ _ A).
  assert (WZ : vec (aws st') q = pick ov vs0 (avs st) (S q)) by (rewrite EW; generalize (pick ov vs0 (avs st) (S q)); intros zz; rewrite <- LW; apply vec_app_r).
  assert (P' : picks ov vs0 (S q) st').
  { intros i Hi. destruct (Nat.eq_dec i q) as [->|N].
    - rewrite WZ. unfold pick. replace (S q - 1)%nat with q by lia. destruct (Nat.ltb_spec (S q) (List.length ov + 1)); destruct (Nat.ltb_spec q (List.length ov)); try lia; [reflexivity|].
      destruct (Nat.eqb_spec (S q) (List.length ov + 1)); destruct (Nat.eqb_spec q (List.length ov)); try lia; [reflexivity|]. rewrite EA, vec_app_l by lia. apply last_vec, LV.
    - rewrite EW, vec_app_l by lia. rewrite P by lia. destruct (Nat.ltb i _); [reflexivity|]. destruct (Nat.eqb i _); [reflexivity|]. rewrite EA, vec_app_l by lia. reflexivity. }
  assert (SD' : forall c, (S c < S q)%nat -> hess (S q) st' (S c) c <> 0) by (intros c Hc; rewrite HC by lia; apply SD; lia).
  split; [|split; [|split; [exact HJ|split; [exact H0|split; [exact V0|]]]]].
  - constructor; [exact A'| |exact SD'|exact P'|exact O1]. destruct (Req_dec hj 0) as [Z|Z]; [right|left; apply O2, Z]. split; [exact O1|]. split; [lia|]. intros c Hc. destruct (Nat.eq_dec c q) as [->|N]; [rewrite HJ; exact Z|]. apply (ar_hes _ _ _ _ _ _ A'); lia.
  - intros Z. constructor; [exact A'|apply O2, Z| |exact P']. intros c Hc. destruct (Nat.eq_dec c q) as [->|N]; [rewrite HJ; exact Z|apply SD'; lia].
  - rewrite WZ. unfold KrylovModel.inner_step in E0. destruct (mgs n _ _). destruct (qr _ _ _). injection E0 as _ _ <-. reflexivity.
Qed.
Lemma mEPS_pos : 0 < mEPS.
Proof. unfold mEPS. apply Rmult_lt_0_compat; [lra|apply Rinv_0_lt_compat, pow_lt; lra]. Qed.
(** how the loop ends after [q] iterations *)
Definition exit_test (tol res0 : R) (q : nat) (st : arnoldi) : Prop :=
  exists l, q = S l /\ (Rabs (aQ st 0%nat q) * res0 <= tol * res0 \/ 0 <= hess q st q l <= mEPS * vnorm (B (vec (aws st) l))).
Lemma inner_ok m : forall ov vs0 tol res0 st q st' j, going ov vs0 q st -> inner m ov vs0 tol res0 st (S q) = (st', j) ->
  ended ov vs0 j st' /\ (q <= j <= q + m)%nat /\ ((j = (q + m)%nat /\ going ov vs0 j st') \/ exit_test tol res0 j st') /\ (m <> 0%nat -> (q < j)%nat).
Proof.
  induction m as [|m IH]; intros ov vs0 tol res0 st q st' j G E; cbn [KrylovModel.inner] in E.
  - injection E as <- <-. rewrite ?Nat.sub_0_r. split; [apply going_ended, G|]. split; [lia|]. split; [left; split; [lia|exact G]|congruence].
  - destruct (inner_step ov vs0 st (S q)) as [[st1 hj] vn] eqn:ES. destruct (step_going _ _ _ _ _ _ _ G ES) as [EN [GO [HJ [H0 [V0 VN]]]]].
    destruct (Rle_dec (Rabs (aQ st1 0%nat (S q)) * res0) (tol * res0)) as [T1|T1]; [injection E as <- <-; split; [exact EN|]; split; [lia|]; split; [right; exists q; split; [reflexivity|left; exact T1]|lia]|].
    destruct (Rle_dec hj (mEPS * vn)) as [T2|T2]; [injection E as <- <-; split; [exact EN|]; split; [lia|]; split; [right; exists q; split; [reflexivity|right; rewrite HJ, <- VN; split; [exact H0|exact T2]]|lia]|].
    assert (NZ : hj <> 0). { intros Z. apply T2. rewrite Z. apply Rmult_le_pos; [left; apply mEPS_pos|exact V0]. }
    destruct (IH _ _ _ _ _ _ _ _ (GO NZ) E) as [A1 [A2 [A3 A4]]]. split; [exact A1|]. split; [lia|]. split; [destruct A3 as [[A3 A5]|A3]; [left; split; [lia|exact A5]|right; exact A3]|lia].
Qed.
Lemma combine_lin y ws : forall j i, KrylovModel.combine y ws j i = rsum (List.length ws) (fun k => y (j + k)%nat * vec ws k i).
Proof.
  induction ws as [|w ws IH]; intros j i; [reflexivity|]. cbn [KrylovModel.combine List.length]. rewrite rsum_S_l. unfold vadd, vscal. rewrite IH, Nat.add_0_r. unfold vec. cbn [nth]. f_equal. apply rsum_ext. intros k _. replace (j + S k)%nat with (S j + k)%nat by lia. reflexivity.
Qed.
(** ** the correction *)
Lemma correction_opt ov tol inner_m r dx : vnorm (psolve r) <> 0 -> correction ov tol inner_m r = Ok dx ->
  exists st j vs0, (1 <= j)%nat /\ (j <= inner_m + List.length ov)%nat /\ ended ov vs0 j st /\
    (forall i, (i < n)%nat -> psolve r i = - (vnorm (psolve r) * vs0 i)) /\
    ((j = (inner_m + List.length ov)%nat /\ going ov vs0 j st) \/ exit_test tol (vnorm (psolve r)) j st) /\
    inspan n j (vec (aws st)) dx /\
    vdot (vadd (psolve r) (B dx)) (vadd (psolve r) (B dx)) = vnorm (psolve r) * vnorm (psolve r) * (misfit j (aR st) (aQ st 0%nat) (lsolve j (aR st) (aQ st 0%nat)) + aQ st 0%nat j * aQ st 0%nat j) /\
    (forall z, inspan n j (vec (aws st)) z -> vnorm (vadd (psolve r) (B dx)) <= vnorm (vadd (psolve r) (B z))).
Proof.
  intros NZ E. unfold KrylovModel.correction in E. assert (NE : vnorm (vscal (-1) (psolve r)) = vnorm (psolve r)).
  { unfold KrylovModel.vnorm. f_equal. rewrite dot_scal_r, dot_comm, dot_scal_r. ring. }
  rewrite NE in E. set (N := vnorm (psolve r)) in *. set (vs0 := vdiv junk (vscal (-1) (psolve r)) N) in *.
  assert (PR : forall i, (i < n)%nat -> psolve r i = - (N * vs0 i)) by (intros i Hi; unfold vs0, vdiv; destruct (Req_EM_T N 0); [congruence|]; unfold vscal; field; exact NZ).
  assert (G0 : going ov vs0 0 (mkar [vs0] [] start (fun _ _ => 0))).
  { constructor; [apply arn_start| |intros c Hc; lia|intros i Hi; lia]. intros r' s Hr Hs. assert (r' = 0%nat) by lia. assert (s = 0%nat) by lia. subst. cbn [avs]. unfold vec. cbn [nth]. rewrite delta_same.
    unfold vs0, vdiv. destruct (Req_EM_T N 0); [congruence|]. rewrite dot_scal_r, dot_comm, dot_scal_r, <- norm_sq, NE. fold N. field. exact NZ. }
  destruct (inner (inner_m + List.length ov) ov vs0 tol N (mkar [vs0] [] start (fun _ _ => 0)) 1) as [st j] eqn:EI. destruct (inner_ok _ _ _ _ _ _ _ _ _ G0 EI) as [EN [J1 [J2 J3]]]. destruct (Nat.eqb_spec j 0) as [|J0]; [discriminate|]. injection E as <-.
  set (y := vscal N (lsolve j (aR st) (aQ st 0%nat))). assert (I := en_arn _ _ _ _ EN). assert (LW := ar_ws _ _ _ _ _ _ I).
  assert (DX : forall i, KrylovModel.combine y (aws st) 0 i = lincomb j y (vec (aws st)) i) by (intros i; rewrite combine_lin, LW; reflexivity).
  assert (BD : forall i, (i < n)%nat -> vadd (psolve r) (B (KrylovModel.combine y (aws st) 0)) i = vadd (psolve r) (B (lincomb j y (vec (aws st)))) i) by (intros i Hi; unfold vadd; f_equal; apply (mat_ext n Bf _ _ HB); auto).
  exists st, j, vs0. split; [lia|]. split; [lia|]. split; [exact EN|]. split; [exact PR|]. split; [destruct J2 as [[J2 J4]|J2]; [left; split; [lia|exact J4]|right; exact J2]|]. split; [exists y; intros i _; apply DX|]. split.
  - rewrite (dot_ext n _ _ _ _ BD BD). rewrite (residual_norm vs0 j st N (psolve r) y I (en_b _ _ _ _ EN) PR). unfold y. rewrite misfit_scal. ring.
  - intros z [c Hc]. assert (BZ : forall i, (i < n)%nat -> vadd (psolve r) (B z) i = vadd (psolve r) (B (lincomb j c (vec (aws st)))) i) by (intros i Hi; unfold vadd; f_equal; apply (mat_ext n Bf _ _ HB); auto).
    unfold KrylovModel.vnorm. apply sqrt_le_1_alt. rewrite (dot_ext n _ _ _ _ BD BD), (dot_ext n _ _ _ _ BZ BZ). rewrite !(residual_norm vs0 j st N (psolve r) _ I (en_b _ _ _ _ EN) PR). apply Rplus_le_compat_r. apply misfit_min, NZ.
Qed.
End Arn.
End Dim.
