(** Lemmas about solvers/utils.cpp. *)
From Coq Require Import Reals ZArith Lra Psatz Lia List.
Import ListNotations.
From Verif Require Import Base Options Mat3 PhysModel PhysInst PhysSpec PhysProof2 RiemannProof UtilsModel.
Open Scope R_scope.

Lemma cube_root : forall x, 0 < x -> Rpower x (/ 3) * Rpower x (/ 3) * Rpower x (/ 3) = x.
Proof.
  intros x H. rewrite <- !Rpower_plus. replace (/ 3 + / 3 + / 3) with 1 by lra. apply Rpower_1, H.
Qed.
Lemma cbrt_cube : forall x, cbrt x * cbrt x * cbrt x = x.
Proof.
  intro x. unfold cbrt. destruct (Rlt_dec 0 x) as [H|H]; [apply cube_root, H|].
  destruct (Rlt_dec x 0) as [H'|H'].
  - assert (E := cube_root (- x) ltac:(lra)).
    replace (- Rpower (- x) (/ 3) * - Rpower (- x) (/ 3) * - Rpower (- x) (/ 3))
      with (- (Rpower (- x) (/ 3) * Rpower (- x) (/ 3) * Rpower (- x) (/ 3))) by ring. lra.
  - lra.
Qed.
Lemma cbrt_pos : forall x, 0 < x -> 0 < cbrt x.
Proof. intros x H. unfold cbrt. destruct (Rlt_dec 0 x); [apply exp_pos|lra]. Qed.
Lemma cube_inj : forall a b, a * a * a = b * b * b -> a = b.
Proof.
  intros a b E. assert (F : (a - b) * (a * a + a * b + b * b) = 0) by (ring_simplify; ring_simplify in E; lra).
  apply Rmult_integral in F. destruct F as [F|F]; [lra|].
  assert (X := Rle_0_sqr (a + b / 2)). assert (Y := Rle_0_sqr b). unfold Rsqr in X, Y. assert (b * b = 0) by lra.
  assert (b = 0) by (apply Rmult_integral in H; tauto). subst b. assert (a * a = 0) by lra. apply Rmult_integral in H0. tauto.
Qed.
Lemma cbrt_of_cube : forall a, cbrt (a * a * a) = a.
Proof. intro a. apply cube_inj, cbrt_cube. Qed.

Lemma get_ok : forall {A} (l : list A) i, (i < List.length l)%nat -> exists x, get l i = Ok x /\ nth_error l i = Some x.
Proof.
  intros A l i H. unfold get. destruct (nth_error l i) eqn:E; [eauto|]. apply nth_error_None in E. lia.
Qed.
Lemma get_inv : forall {A} (l : list A) i x, get l i = Ok x -> nth_error l i = Some x.
Proof. intros A l i x. unfold get. destruct (nth_error l i); congruence. Qed.
Lemma get_some : forall {A} (l : list A) i x, nth_error l i = Some x -> get l i = Ok x.
Proof. intros A l i x H. unfold get. now rewrite H. Qed.

Lemma each_cell_ok : forall f u i u', each_cell f i u = Ok u' ->
  List.length u' = List.length u /\
  forall k q, nth_error u k = Some q -> exists q', nth_error u' k = Some q' /\ f (i + k)%nat q = Ok q'.
Proof.
  induction u as [|q0 u IH]; cbn; intros i u' E.
  - injection E as <-. split; [reflexivity|]. intros [|k] q; discriminate.
  - apply bind_ok in E. destruct E as (q' & E1 & E). apply bind_ok in E. destruct E as (u1 & E2 & E). injection E as <-.
    destruct (IH _ _ E2) as [L H]. split; [cbn; lia|]. intros [|k] q; cbn.
    + intros [= <-]. exists q'. rewrite Nat.add_0_r. auto.
    + intro Hk. destruct (H k q Hk) as (x & X & Y). exists x. split; [exact X|]. rewrite <- Y. f_equal. lia.
Qed.
Lemma each_cell_total : forall f u i, (forall k q, nth_error u k = Some q -> exists q', f (i + k)%nat q = Ok q') ->
  exists u', each_cell f i u = Ok u'.
Proof.
  induction u as [|q0 u IH]; cbn; intros i H; [eauto|].
  destruct (H 0%nat q0 eq_refl) as [q' E]. rewrite Nat.add_0_r in E. rewrite E. cbn.
  destruct (IH (S i)) as [u' E']. { intros k q Hk. destruct (H (S k) q Hk) as [x X]. exists x. rewrite <- X. f_equal. lia. }
  rewrite E'. cbn. eauto.
Qed.

Lemma material_bound : forall o q, (get_material_index o q <= LSET o)%nat.
Proof.
  intros o q. unfold get_material_index. 
  assert (X := seq_length (LSET o) (V o - LSET o)). revert X. generalize (seq (V o - LSET o) (LSET o)). intros l X.
  rewrite <- X. clear X. induction l as [|k l IH]; cbn; [lia|]. destruct (Rle_dec 0 (q k)); cbn; lia.
Qed.
Lemma material_ext : forall o q q', (forall k, (V o - LSET o <= k < V o)%nat -> q k = q' k) ->
  get_material_index o q = get_material_index o q'.
Proof.
  intros o q q' H. unfold get_material_index. f_equal. apply filter_ext_in. intros k Hk. apply in_seq in Hk.
  rewrite H; [reflexivity|]. unfold V in *. lia.
Qed.

Lemma setseg_in : forall q lo n f k, (lo <= k < lo + n)%nat -> setseg q lo n f k = f (k - lo)%nat.
Proof.
  intros. unfold setseg. destruct (Nat.leb_spec lo k); [|lia]. destruct (Nat.ltb_spec k (lo + n)); [reflexivity|lia].
Qed.
Lemma setseg_out : forall q lo n f k, (k < lo \/ lo + n <= k)%nat -> setseg q lo n f k = q k.
Proof.
  intros. unfold setseg. destruct (Nat.leb_spec lo k); [|reflexivity]. destruct (Nat.ltb_spec k (lo + n)); [lia|reflexivity].
Qed.
Lemma set1_same : forall q i x, set1 q i x i = x. Proof. intros. unfold set1. now rewrite Nat.eqb_refl. Qed.
Lemma set1_other : forall q i x k, k <> i -> set1 q i x k = q k.
Proof. intros. unfold set1. destruct (Nat.eqb_spec k i); congruence. Qed.

Lemma V14 : forall o, VISCOUS o = true -> (14 + LSET o <= V o)%nat.
Proof. intros o H. unfold V. rewrite H. cbn [b2n]. lia. Qed.
Lemma has_A_ok : forall o f, VISCOUS o = true -> has_A o f = f.
Proof. intros o f H. unfold has_A. assert (X := V14 o H). destruct (Nat.ltb_spec (V o) 14); [lia|reflexivity]. Qed.
Lemma det_scal : forall c A, det3 (mscal c A) = c * c * c * det3 A.
Proof. intros. m3. ring. Qed.

(** ** renorm *)
Section Renorm.
Variables (o : options) (MPs : list matpar).
Hypothesis VI : VISCOUS o = true.
Definition renormed (r0 : R) (q : vec) : vec :=
  setseg q 5 9 (fun k => q (5 + k)%nat * cbrt (q 0%nat / (r0 * det3 (get_A q)))).
Lemma renormed_A : forall r0 q, meq (get_A (renormed r0 q)) (mscal (cbrt (q 0%nat / (r0 * det3 (get_A q)))) (get_A q)).
Proof.
  intros r0 q i j Hi Hj. unfold get_A at 1, renormed. rewrite setseg_in by lia.
  replace (5 + (5 + 3 * i + j - 5))%nat with (5 + 3 * i + j)%nat by lia. unfold mscal, get_A. ring.
Qed.
Lemma renormed_out : forall r0 q j, (j < 5 \/ 14 <= j)%nat -> renormed r0 q j = q j.
Proof. intros. unfold renormed. apply setseg_out. lia. Qed.
Lemma renormed_det : forall r0 q, r0 <> 0 -> det3 (get_A q) <> 0 -> det3 (get_A (renormed r0 q)) = q 0%nat / r0.
Proof.
  intros r0 q H0 HD. rewrite (det_meq _ _ (renormed_A r0 q)), det_scal, cbrt_cube. field. auto.
Qed.
Lemma renormed_fix : forall r0 q k, r0 <> 0 -> q 0%nat <> 0 -> det3 (get_A q) = q 0%nat / r0 -> renormed r0 q k = q k.
Proof.
  intros r0 q k H0 Hq HD. unfold renormed. destruct (Nat.le_gt_cases 5 k) as [L|L]; [|apply setseg_out; lia].
  destruct (Nat.lt_ge_cases k 14) as [L'|L']; [|apply setseg_out; lia]. rewrite setseg_in by lia. rewrite HD.
  replace (q 0%nat / (r0 * (q 0%nat / r0))) with (1 * 1 * 1) by (field; auto). rewrite cbrt_of_cube.
  replace (5 + (k - 5))%nat with k by lia. ring.
Qed.
Lemma renorm_cell_ok : forall i q m, nth_error MPs (get_material_index o q) = Some m ->
  renorm_cell o MPs i q =
    Ok (if mp_void m then q else if Rlt_dec 0 (q 0%nat) then renormed (rho0 (prm (mp_par m))) q else q).
Proof.
  intros i q m E. unfold renorm_cell. rewrite (get_some _ _ _ E). cbn [bind]. destruct (mp_void m); [reflexivity|].
  destruct (Rlt_dec 0 (q 0%nat)); [|reflexivity]. rewrite has_A_ok by exact VI. reflexivity.
Qed.
End Renorm.

(** ** reset *)
Section Reset.
Variables (o : options) (MPs : list matpar).
Hypothesis VI : VISCOUS o = true.
Definition resetted (P : par) (q : vec) : vec :=
  let c := cbrt (q 0%nat / rho0 (prm P)) in
  set1 (set1 (set1 (setseg (set1 q 1 (q 1%nat - q 0%nat * E_2A P (q 0%nat) (get_A q))) 5 9 (fun _ => 0)) 5 c) 9 c) 13 c.
Lemma resetted_A : forall P q, meq (get_A (resetted P q)) (mscal (cbrt (q 0%nat / rho0 (prm P))) id3).
Proof.
  intros P q i j Hi Hj. unfold get_A, resetted, mscal, id3, delta.
  idx3 i; idx3 j; cbn [Nat.add Nat.mul Nat.eqb]; cbv zeta;
  repeat first [rewrite set1_same | rewrite set1_other by lia | rewrite setseg_in by lia]; ring.
Qed.
Lemma resetted_out : forall P q j, (j < 5 \/ 14 <= j)%nat -> j <> 1%nat -> resetted P q j = q j.
Proof.
  intros P q j H H'. unfold resetted. cbv zeta. rewrite !(set1_other _ _ _ j) by lia. rewrite setseg_out by lia.
  apply set1_other. exact H'.
Qed.
Lemma resetted_1 : forall P q, resetted P q 1%nat = q 1%nat - q 0%nat * E_2A P (q 0%nat) (get_A q).
Proof.
  intros P q. unfold resetted. cbv zeta. rewrite !(set1_other _ _ _ 1) by lia. rewrite setseg_out by lia. apply set1_same.
Qed.
Lemma devGsq_iso : forall c, devGsq (mscal c id3) = 0.
Proof. intro c. unfold devGsq. m3. field. Qed.
Lemma resetted_energy : forall P q, q 0%nat <> 0 -> ((-1 < REACTION P)%Z -> MULTI o = true) ->
  internal_energy o P (resetted P q) = internal_energy o P q.
Proof.
  intros P q H0 HR. unfold internal_energy. rewrite VI. rewrite (resetted_out P q 0) by lia. rewrite resetted_1.
  replace (E_2A P (q 0%nat) (get_A (resetted P q))) with 0.
  2:{ unfold E_2A. rewrite (devGsq_meq _ _ (resetted_A P q)), devGsq_iso. ring. }
  replace (E_3 (fun i => get_rhov (resetted P q) i / q 0%nat)) with (E_3 (fun i => get_rhov q i / q 0%nat)).
  2:{ unfold E_3, dot3, sum3, get_rhov. cbn [Nat.add]. rewrite !resetted_out by lia. reflexivity. }
  replace (E_2J P (fun i => get_rhoJ (resetted P q) i / q 0%nat)) with (E_2J P (fun i => get_rhoJ q i / q 0%nat)).
  2:{ unfold E_2J, dot3, sum3, get_rhoJ. cbn [Nat.add]. rewrite !resetted_out by lia. reflexivity. }
  replace (resetted P q (mV o)) with (q (mV o)).
  2:{ symmetry. apply resetted_out; unfold mV; rewrite VI; cbn [b2n]; lia. }
  destruct (THERMAL o), (Z.ltb (-1) (REACTION P)); field; exact H0.
Qed.
Lemma resetted_pressure : forall P sm q, PMULTI P = false -> q 0%nat <> 0 -> ((-1 < REACTION P)%Z -> MULTI o = true) ->
  pressure o P sm (resetted P q) = pressure o P sm q.
Proof.
  intros P sm q HM H0 HR. unfold pressure. rewrite HM, resetted_energy by assumption. rewrite (resetted_out P q 0) by lia. reflexivity.
Qed.
Lemma reset_cell_ok : forall i q m, nth_error MPs (get_material_index o q) = Some m ->
  reset_cell o MPs i q = Ok (if mp_void m then q else resetted (mp_par m) q).
Proof.
  intros i q m E. unfold reset_cell. rewrite (get_some _ _ _ E). cbn [bind]. destruct (mp_void m); [reflexivity|].
  rewrite has_A_ok by exact VI. reflexivity.
Qed.
Lemma shape_prod : forall A i j, (i < 3)%nat -> (j < 3)%nat -> shape A i j = mmul (dev3 (gram A)) (gram A) i j.
Proof. intros A i j Hi Hj. unfold shape, AdevG. idx3 i; idx3 j; m3; cbv zeta; cbn [Nat.eqb]; field. Qed.
Lemma resetted_stress : forall P q, meq (sigma P (resetted P q)) (fun _ _ => 0).
Proof.
  intros P q i j Hi Hj. rewrite sigma_shape. replace (shape (get_A (resetted P q)) i j) with 0; [ring|].
  symmetry. rewrite shape_prod by assumption. set (c := cbrt (q 0%nat / rho0 (prm P))).
  assert (G : meq (gram (get_A (resetted P q))) (mscal (c * c) id3)).
  { intros a b Ha Hb. assert (E := resetted_A P q). unfold gram.
    rewrite (mmul_meq _ _ _ _ (mtr_meq _ _ E) E a b Ha Hb). idx3 a; idx3 b; m3; cbn [Nat.eqb]; fold c; ring. }
  revert G. generalize (gram (get_A (resetted P q))). intros G HG.
  rewrite (mmul_meq _ _ _ _ (dev3_meq _ _ HG) HG i j Hi Hj). idx3 i; idx3 j; m3; field.
Qed.
End Reset.

(** ** rotate *)
(** an exact singular value decomposition of A with factors U, S, V *)
Definition diag3 (s : vec3) : mat3 := fun i j => if Nat.eqb i j then s i else 0.
Definition is_svd (A : mat3) (s : vec3) (Vm : mat3) : Prop :=
  (forall i, (i < 3)%nat -> 0 <= s i) /\ orthogonal Vm /\
  exists U, orthogonal U /\ meq A (mmul (mmul U (diag3 s)) (mtr Vm)).

Section Rotate.
Variables (o : options) (svd : mat3 -> vec3 * mat3) (MPs : list matpar).
Hypothesis VI : VISCOUS o = true.
Definition rotated (q : vec) : vec :=
  let '(s, Vm) := svd (get_A q) in
  let put (j : nat) (q : vec) := setseg q (5 + 3 * j) 3 (fun k => s j * Vm k j) in
  put 2%nat (put 1%nat (put 0%nat q)).
Lemma rotated_A : forall q, meq (get_A (rotated q)) (mmul (diag3 (fst (svd (get_A q)))) (mtr (snd (svd (get_A q))))).
Proof.
  intros q i j Hi Hj. unfold rotated. destruct (svd (get_A q)) as [s Vm]. cbn [fst snd]. unfold get_A, mmul, mtr, diag3, sum3.
  idx3 i; cbn [Nat.mul Nat.add Nat.eqb].
  - rewrite setseg_out by lia. rewrite setseg_out by lia. rewrite setseg_in by lia.
    idx3 j; cbn [Nat.sub Nat.add]; ring.
  - rewrite setseg_out by lia. rewrite setseg_in by lia. idx3 j; cbn [Nat.sub Nat.add]; ring.
  - rewrite setseg_in by lia. idx3 j; cbn [Nat.sub Nat.add]; ring.
Qed.
Lemma rotated_out : forall q j, (j < 5 \/ 14 <= j)%nat -> rotated q j = q j.
Proof.
  intros q j H. unfold rotated. destruct (svd (get_A q)) as [s Vm]. rewrite !setseg_out by lia. reflexivity.
Qed.
Lemma rotated_gram : forall q, is_svd (get_A q) (fst (svd (get_A q))) (snd (svd (get_A q))) ->
  meq (gram (get_A (rotated q))) (gram (get_A q)).
Proof.
  intros q (_ & _ & U & [O1 O2] & E). set (s := fst (svd (get_A q))) in *. set (Vm := snd (svd (get_A q))) in *.
  assert (R := rotated_A q). fold s Vm in R. set (B := mmul (diag3 s) (mtr Vm)) in *.
  assert (G1 : meq (gram (get_A (rotated q))) (gram B)) by (apply mmul_meq; [apply mtr_meq|]; exact R).
  assert (E' : meq (get_A q) (mmul U B)) by (eapply meq_trans; [exact E|apply mmul_assoc]).
  assert (G2 : meq (gram (get_A q)) (gram (mmul U B))) by (apply mmul_meq; [apply mtr_meq|]; exact E').
  eapply meq_trans; [exact G1|]. apply meq_sym. eapply meq_trans; [exact G2|]. apply gram_left, O1.
Qed.
Lemma rotate_cell_ok : forall i q m, nth_error MPs (get_material_index o q) = Some m ->
  rotate_cell o svd MPs i q = Ok (if mp_void m then q else rotated q).
Proof.
  intros i q m E. unfold rotate_cell. rewrite (get_some _ _ _ E). cbn [bind]. destruct (mp_void m); [reflexivity|].
  rewrite has_A_ok by exact VI. unfold rotated. destruct (svd (get_A q)). reflexivity.
Qed.
End Rotate.

(** quantities that depend on the metric tensor only *)
Lemma devGsq_gram : forall A B, meq (gram A) (gram B) -> devGsq A = devGsq B.
Proof. intros A B H. rewrite !devGsq_frob. apply frob_meq, dev3_meq, H. Qed.
Lemma shape_gram : forall A B, meq (gram A) (gram B) -> meq (shape A) (shape B).
Proof.
  intros A B H i j Hi Hj. rewrite !shape_prod by assumption. apply mmul_meq; try assumption; apply dev3_meq; exact H.
Qed.
Lemma svd_trace : forall A s Vm, is_svd A s Vm ->
  trace3 (gram A) = s 0%nat * s 0%nat + s 1%nat * s 1%nat + s 2%nat * s 2%nat.
Proof.
  intros A s Vm (_ & [O1 O2] & U & [U1 U2] & E).
  set (B := mmul (diag3 s) (mtr Vm)).
  assert (E' : meq A (mmul U B)) by (eapply meq_trans; [exact E|apply mmul_assoc]).
  assert (G : meq (gram A) (gram B)).
  { eapply meq_trans; [apply mmul_meq; [apply mtr_meq|]; exact E'|]. apply gram_left, U1. }
  unfold trace3, sum3. rewrite !G by lia.
  assert (D := fun i => O1 i i). assert (D0 := D 0%nat ltac:(lia) ltac:(lia)). assert (D1 := D 1%nat ltac:(lia) ltac:(lia)).
  assert (D2 := D 2%nat ltac:(lia) ltac:(lia)). clear - D0 D1 D2.
  transitivity (s 0%nat * s 0%nat * mmul (mtr Vm) Vm 0%nat 0%nat + s 1%nat * s 1%nat * mmul (mtr Vm) Vm 1%nat 1%nat
    + s 2%nat * s 2%nat * mmul (mtr Vm) Vm 2%nat 2%nat).
  - unfold B, diag3. m3. ring.
  - rewrite D0, D1, D2. unfold id3, delta. cbn [Nat.eqb]. ring.
Qed.
Lemma det_diag : forall s, det3 (diag3 s) = s 0%nat * s 1%nat * s 2%nat.
Proof. intro s. unfold diag3. m3. ring. Qed.
Lemma det_mtr : forall A, det3 (mtr A) = det3 A.
Proof. intro A. m3. ring. Qed.
Lemma det_orth2 : forall U, orthogonal U -> det3 U * det3 U = 1.
Proof.
  intros U [O1 O2]. rewrite <- (det_mtr U) at 1. rewrite <- det_mmul, (det_meq _ _ O1). apply det_id.
Qed.
Lemma svd_det : forall A s Vm, is_svd A s Vm -> Rabs (det3 A) = s 0%nat * s 1%nat * s 2%nat.
Proof.
  intros A s Vm (S & OV & U & OU & E). rewrite (det_meq _ _ E), !det_mmul, det_mtr, det_diag.
  assert (HU := det_orth2 U OU). assert (HV := det_orth2 Vm OV).
  assert (P : 0 <= s 0%nat * s 1%nat * s 2%nat).
  { apply Rmult_le_pos; [apply Rmult_le_pos|]; apply S; lia. }
  assert (AU : Rabs (det3 U) = 1). { unfold Rabs. destruct (Rcase_abs (det3 U)); nra. }
  assert (AV : Rabs (det3 Vm) = 1). { unfold Rabs. destruct (Rcase_abs (det3 Vm)); nra. }
  generalize dependent (s 0%nat * s 1%nat * s 2%nat). intros p P. rewrite !Rabs_mult, AU, AV, (Rabs_right p) by lra. ring.
Qed.
