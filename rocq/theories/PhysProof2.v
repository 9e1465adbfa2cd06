(** Matrix identities behind the shear energy and the stress, and their derivatives along a curve of states. *)
From Coq Require Import Reals Lra Psatz Lia.
From Coquelicot Require Import Coquelicot.
From Verif Require Import Base Options Mat3 PhysModel PhysSpec PhysProof.
Import List ListNotations.
Open Scope R_scope.

Ltac idx3 i := destruct i as [|[|[|i]]]; [| | |exfalso; lia].
Ltac m3 := unfold gram, dev3, frob3, trace3, det3, mmul, mvec, mtr, madd, msub, mscal, id3, delta, dot3, sum3; cbn [Nat.eqb].

Lemma devGsq_frob : forall A, devGsq A = frob3 (dev3 (gram A)) (dev3 (gram A)).
Proof. intro A. unfold devGsq. m3. field. Qed.
Lemma AdevG_prod : forall A, meq (AdevG A) (mmul A (dev3 (gram A))).
Proof. intros A i j Hi Hj. unfold AdevG. idx3 i; idx3 j; m3; field. Qed.
Lemma frob_nonneg : forall A, 0 <= frob3 A A.
Proof. intro A. m3. assert (Q : forall x : R, 0 <= x * x) by (intro; nra). repeat apply Rplus_le_le_0_compat; apply Q. Qed.
Lemma frob_zero : forall A, frob3 A A = 0 -> meq A (fun _ _ => 0).
Proof.
  intros A H i j Hi Hj. assert (Q : forall x : R, 0 <= x * x) by (intro; nra).
  revert H. m3. intro H.
  assert (Z : forall x, x * x = 0 -> x = 0) by (intros; nra).
  pose proof (Q (A 0 0)%nat). pose proof (Q (A 0 1)%nat). pose proof (Q (A 0 2)%nat). pose proof (Q (A 1 0)%nat). pose proof (Q (A 1 1)%nat).
  pose proof (Q (A 1 2)%nat). pose proof (Q (A 2 0)%nat). pose proof (Q (A 2 1)%nat). pose proof (Q (A 2 2)%nat).
  idx3 i; idx3 j; apply Z; lra.
Qed.

(** congruence of the scalar functions under pointwise equality *)
Ltac meqs H := repeat match goal with |- context [?f ?i ?j] => match type of H with meq f ?g => rewrite (H i j) by lia end end.
Lemma devGsq_meq : forall A B, meq A B -> devGsq A = devGsq B.
Proof. intros A B H. unfold devGsq, dot3, sum3. rewrite !H by lia. reflexivity. Qed.
Lemma frob_meq : forall A B, meq A B -> frob3 A A = frob3 B B.
Proof. intros A B H. unfold frob3, sum3. rewrite !H by lia. reflexivity. Qed.
Lemma dev3_meq : forall A B, meq A B -> meq (dev3 A) (dev3 B).
Proof. intros A B H i j Hi Hj. unfold dev3, trace3, sum3. rewrite !H by lia. reflexivity. Qed.
Lemma mmul_meq : forall A A' B B', meq A A' -> meq B B' -> meq (mmul A B) (mmul A' B').
Proof. intros A A' B B' H K i j Hi Hj. unfold mmul, sum3. rewrite !H, !K by lia. reflexivity. Qed.
Lemma mmul_assoc : forall A B C, meq (mmul (mmul A B) C) (mmul A (mmul B C)).
Proof. intros A B C i j Hi Hj. m3. ring. Qed.
Lemma meq_trans : forall A B C, meq A B -> meq B C -> meq A C.
Proof. intros A B C H K i j Hi Hj. rewrite H by assumption. apply K; assumption. Qed.
Lemma meq_sym : forall A B, meq A B -> meq B A.
Proof. intros A B H i j Hi Hj. symmetry. apply H; assumption. Qed.
Lemma meq_refl : forall A, meq A A. Proof. intros A i j _ _. reflexivity. Qed.
Lemma mmul_id_l : forall A, meq (mmul id3 A) A.
Proof. intros A i j Hi Hj. idx3 i; m3; ring. Qed.
Lemma mmul_id_r : forall A, meq (mmul A id3) A.
Proof. intros A i j Hi Hj. idx3 j; m3; ring. Qed.
Lemma mtr_mmul : forall A B, meq (mtr (mmul A B)) (mmul (mtr B) (mtr A)).
Proof. intros A B i j Hi Hj. m3. ring. Qed.
Lemma mtr_meq : forall A B, meq A B -> meq (mtr A) (mtr B).
Proof. intros A B H i j Hi Hj. apply H; assumption. Qed.

Lemma gram_left : forall R A, meq (mmul (mtr R) R) id3 -> meq (gram (mmul R A)) (gram A).
Proof.
  intros R A H. unfold gram.
  eapply meq_trans; [apply mmul_meq; [apply mtr_mmul|apply meq_refl]|].
  eapply meq_trans; [apply mmul_assoc|]. apply mmul_meq; [apply meq_refl|].
  eapply meq_trans; [apply meq_sym, mmul_assoc|]. eapply meq_trans; [apply mmul_meq; [exact H|apply meq_refl]|]. apply mmul_id_l.
Qed.
(** A A^T *)
Definition cogram (A : mat3) : mat3 := mmul A (mtr A).
Lemma cogram_right : forall S A, meq (mmul S (mtr S)) id3 -> meq (cogram (mmul A S)) (cogram A).
Proof.
  intros S A H. unfold cogram.
  eapply meq_trans; [apply mmul_meq; [apply meq_refl|apply mtr_mmul]|].
  eapply meq_trans; [apply mmul_assoc|]. apply mmul_meq; [apply meq_refl|].
  eapply meq_trans; [apply meq_sym, mmul_assoc|]. eapply meq_trans; [apply mmul_meq; [exact H|apply meq_refl]|]. apply mmul_id_l.
Qed.
Lemma devGsq_cogram : forall A, devGsq A = frob3 (dev3 (cogram A)) (dev3 (cogram A)).
Proof. intro A. unfold devGsq, cogram. m3. field. Qed.
Lemma devGsq_left : forall R A, meq (mmul (mtr R) R) id3 -> devGsq (mmul R A) = devGsq A.
Proof. intros R A H. rewrite !devGsq_frob. apply frob_meq, dev3_meq, gram_left, H. Qed.
Lemma devGsq_right : forall S A, meq (mmul S (mtr S)) id3 -> devGsq (mmul A S) = devGsq A.
Proof. intros S A H. rewrite !devGsq_cogram. apply frob_meq, dev3_meq, cogram_right, H. Qed.
Lemma devGsq_zero : forall A, devGsq A = 0 <-> exists c, meq (gram A) (mscal c id3).
Proof.
  intro A. rewrite devGsq_frob. split; intro H.
  - apply frob_zero in H. exists (trace3 (gram A) / 3). intros i j Hi Hj. specialize (H i j Hi Hj).
    unfold dev3 in H. unfold mscal, id3. lra.
  - destruct H as (c & H). rewrite (frob_meq _ (fun _ _ => 0)); [m3; ring|].
    intros i j Hi Hj. rewrite (dev3_meq _ _ H i j Hi Hj). idx3 i; idx3 j; m3; field.
Qed.

(** ** stress *)
(** devG G, the shape of the stress *)
Definition shape (A : mat3) (i d : nat) : R := sum3 (fun k => AdevG A k i * A k d).
Lemma sigma_col_shape : forall P Q d i, sigma_col P Q d i = - Q 0%nat * c_s2 (prm P) (Q 0%nat) * shape (get_A Q) i d.
Proof. intros. unfold sigma_col, dEdA_s, shape, mvec, mscal, mtr, sum3. ring. Qed.
Lemma sigma_shape : forall P Q d i, sigma P Q i d = - Q 0%nat * c_s2 (prm P) (Q 0%nat) * shape (get_A Q) i d.
Proof. intros. unfold sigma, dEdA_s, shape, mmul, mscal, mtr, sum3. ring. Qed.
Lemma shape_sym : forall A i d, (i < 3)%nat -> (d < 3)%nat -> shape A i d = shape A d i.
Proof. intros A i d Hi Hd. unfold shape, AdevG. idx3 i; idx3 d; m3; field. Qed.

(** auto_derive only looks through plain functions of the variable *)
Lemma der_gg : forall (g : nat -> nat -> R -> R) (g' : nat -> nat -> R) t0 i d, (forall a b, is_derive (g a b) t0 (g' a b)) ->
  is_derive (fun t : R => (g i 0%nat t * g 0%nat d t + g i 1%nat t * g 1%nat d t + g i 2%nat t * g 2%nat d t)
     - (g 0%nat 0%nat t + g 1%nat 1%nat t + g 2%nat 2%nat t) / 3 * g i d t) t0
   (sum3 (fun k => g' i k * g k d t0 + g i k t0 * g' k d)
     - ((g' 0%nat 0%nat + g' 1%nat 1%nat + g' 2%nat 2%nat) / 3 * g i d t0 + (g 0%nat 0%nat t0 + g 1%nat 1%nat t0 + g 2%nat 2%nat t0) / 3 * g' i d)).
Proof.
  intros g g' t0 i d H. assert (D := fun a b => is_derive_unique _ _ _ (H a b)).
  assert (D' : forall a b, Derive (fun t => g a b t) t0 = g' a b) by exact D.
  auto_derive; [repeat split; eexists; apply H|]. rewrite !D'. unfold sum3. field.
Qed.
Lemma der_fgh : forall (f g h : R -> R) (f' g' h' : R) t0, is_derive f t0 f' -> is_derive g t0 g' -> is_derive h t0 h' ->
  is_derive (fun t : R => - f t * g t * h t) t0 (- f' * g t0 * h t0 - f t0 * g' * h t0 - f t0 * g t0 * h').
Proof.
  intros f g h f' g' h' t0 A B C. auto_derive; [repeat split; eexists; eassumption|]. dd A; dd B; dd C. ring.
Qed.
Lemma der_fg4 : forall (f g : R -> R) (f' g' : R) t0, is_derive f t0 f' -> is_derive g t0 g' ->
  is_derive (fun t : R => f t / 4 * g t) t0 (f' / 4 * g t0 + f t0 / 4 * g').
Proof.
  intros f g f' g' t0 A B. auto_derive; [repeat split; eexists; eassumption|]. dd A; dd B. field.
Qed.

Section Curve.
Variable F : nat -> R -> R.
Notation Q := (at_time F).
Variable q : vec.
Variable t0 : R.
Hypothesis HQ : forall k, is_derive (fun t => F k t) t0 (q k).
Lemma DQ : forall k, Derive (fun t => F k t) t0 = q k.
Proof. intro k. apply is_derive_unique, HQ. Qed.
Ltac cd := unfold at_time; cbv beta zeta; auto_derive; [repeat split; eexists; apply HQ|]; rewrite ?DQ.

Lemma devGsq_curve : is_derive (fun t => devGsq (get_A (Q t))) t0 (4 * frob3 (AdevG (get_A (Q t0))) (get_A q)).
Proof. unfold devGsq, AdevG, get_A. m3. cbn [Nat.mul Nat.add]. cd. field. Qed.

Lemma shape_curve : forall i d, (i < 3)%nat -> (d < 3)%nat ->
  is_derive (fun t => shape (get_A (Q t)) i d) t0
    (let A := get_A (Q t0) in let G := gram A in
     sum3 (fun m => sum3 (fun n => (A m i * G d n + A m d * G i n - 2 / 3 * G i d * A m n
       + (if Nat.eqb i n then AdevG A m d else 0) + (if Nat.eqb d n then AdevG A m i else 0)) * get_A q m n))).
Proof.
  intros i d Hi Hd. cbv zeta.
  assert (G : forall a b, is_derive (fun t => gram (get_A (Q t)) a b) t0
     (sum3 (fun m => get_A q m a * get_A (Q t0) m b + get_A (Q t0) m a * get_A q m b))).
  { intros a b. unfold gram, mmul, mtr, sum3, get_A. cd. cbn [Nat.mul Nat.add]. ring. }
  assert (E : forall t, shape (get_A (Q t)) i d = sum3 (fun k => gram (get_A (Q t)) i k * gram (get_A (Q t)) k d) - trace3 (gram (get_A (Q t))) / 3 * gram (get_A (Q t)) i d).
  { intro t. unfold shape, AdevG. set (A := get_A (Q t)). idx3 i; idx3 d; m3; field. }
  apply (is_derive_ext _ _ _ _ (fun t => eq_sym (E t))). clear E.
  assert (D := der_gg (fun a b t => gram (get_A (Q t)) a b) _ t0 i d G). cbv beta in D.
  evar_last; [exact D|]. clear D G.
  set (A := get_A (Q t0)). set (B := get_A q).
  idx3 i; idx3 d; unfold AdevG; m3; field.
Qed.

Lemma comp_curve : forall (f : R -> R) l, is_derive f (Q t0 0%nat) l -> is_derive (fun t => f (Q t 0%nat)) t0 (l * q 0%nat).
Proof.
  intros f l H. assert (A := HQ 0%nat).
  assert (B := is_derive_comp f (fun t => F 0%nat t) t0 l (q 0%nat) H A).
  unfold scal in B; cbn in B; unfold mult in B; cbn in B. rewrite Rmult_comm. exact B.
Qed.

Lemma sigma_curve : forall P i d, eos_ok (prm P) (Q t0 0%nat) -> b02 (prm P) <> 0 -> (i < 3)%nat -> (d < 3)%nat ->
  is_derive (fun t => sigma_col P (Q t) d i) t0
    (dsigmadrho P (Q t0) d i * q 0%nat
     + sum3 (fun m => sum3 (fun n => dsigmadA (Q t0 0%nat) (c_s2 (prm P) (Q t0 0%nat)) (get_A (Q t0)) (gram (get_A (Q t0))) (AdevG (get_A (Q t0))) d i m n
         * get_A q m n))).
Proof.
  intros P i d OK Hb Hi Hd. assert (S := shape_curve i d Hi Hd). assert (C := comp_curve _ _ (dcs2_ok _ _ OK)). cbv beta zeta in C, S.
  destruct OK as (Hr & H0 & _).
  assert (N : c_s2 (prm P) (Q t0 0%nat) <> 0).
  { unfold c_s2. apply Rmult_integral_contrapositive_currified; [assumption|]. apply Rgt_not_eq, exp_pos. }
  apply (is_derive_ext (fun t => - Q t 0%nat * c_s2 (prm P) (Q t 0%nat) * shape (get_A (Q t)) i d)).
  { intro t. symmetry. apply sigma_col_shape. }
  assert (D := der_fgh _ _ _ _ _ _ t0 (HQ 0%nat) C S). cbv beta in D.
  evar_last; [exact D|]. clear D C S. change (F 0%nat t0) with (Q t0 0%nat).
  unfold dsigmadrho, dc_s2drho. rewrite sigma_col_shape. unfold dsigmadA, sum3.
  set (cs := c_s2 _ _) in *. set (sh := shape _ _ _). set (G := gram _). set (X := AdevG _).
  assert (GS : forall a b, (a < 3)%nat -> (b < 3)%nat -> G a b = G b a).
  { intros a b Ha Hb'. unfold G. m3. ring. }
  rewrite (GS i d) by assumption.
  destruct (Nat.eqb i 0), (Nat.eqb i 1), (Nat.eqb i 2), (Nat.eqb d 0), (Nat.eqb d 1), (Nat.eqb d 2); field; lra.
Qed.

Variable o : options.
Variable P : par.
Variable solve_multi : vec -> R * R * R.
Hypothesis OK : eos_ok (prm P) (Q t0 0%nat).
Hypothesis HG : Gamma_MG (prm P) (Q t0 0%nat) <> 0.

Lemma E2A_curve : is_derive (fun t => E_2A P (Q t 0%nat) (get_A (Q t))) t0
  (dC_0drho (prm P) (Q t0 0%nat) / 4 * devGsq (get_A (Q t0)) * q 0%nat + frob3 (dEdA P (Q t0)) (get_A q)).
Proof.
  assert (S := devGsq_curve). assert (C := comp_curve _ _ (dC0_ok _ _ OK HG)). cbv beta in C.
  assert (D := der_fg4 _ _ _ _ t0 C S). cbv beta in D. unfold E_2A. evar_last; [exact D|].
  unfold dEdA, frob3, mscal, sum3. field.
Qed.

(** the energy partition along the curve *)
Definition de_curve : R :=
  let Q := Q t0 in let r := Q 0%nat in
  let v i := get_rhov Q i / r in let v' i := (get_rhov q i - v i * q 0%nat) / r in
  let J i := get_rhoJ Q i / r in let J' i := (get_rhoJ q i - J i * q 0%nat) / r in
  (q 1%nat - Q 1%nat / r * q 0%nat) / r - dot3 v v'
  - (if VISCOUS o then dC_0drho (prm P) r / 4 * devGsq (get_A Q) * q 0%nat + frob3 (dEdA P Q) (get_A q) else 0)
  - (if THERMAL o then ca2 (prm P) * dot3 J J' else 0)
  - (if Z.ltb (-1) (REACTION P) then Qc P * ((q (mV o) - Q (mV o) / r * q 0%nat) / r) else 0).
Lemma ie_curve : is_derive (fun t => internal_energy o P (Q t)) t0 de_curve.
Proof.
  assert (E := E2A_curve).
  destruct OK as (Hr & H0 & _). change (0 < F 0%nat t0) in Hr. unfold internal_energy, de_curve. cbv zeta.
  apply (is_derive_ext (fun t => ((((Q t 1%nat / Q t 0%nat - E_3 (fun i => get_rhov (Q t) i / Q t 0%nat)))
     - (if VISCOUS o then E_2A P (Q t 0%nat) (get_A (Q t)) else 0))
     - (if THERMAL o then E_2J P (fun i => get_rhoJ (Q t) i / Q t 0%nat) else 0))
     - (if Z.ltb (-1) (REACTION P) then E_R P (Q t (mV o) / Q t 0%nat) else 0))); [reflexivity|].
  apply (is_derive_minus (V := R_NormedModule)); [apply (is_derive_minus (V := R_NormedModule)); [apply (is_derive_minus (V := R_NormedModule))|]|].
  - unfold E_3, get_rhov. m3. cbn [Nat.add]. unfold at_time; cbv beta zeta. auto_derive; [repeat split; try (eexists; apply HQ); lra|]. rewrite !DQ. field. lra.
  - destruct (VISCOUS o); [exact E|]. auto_derive; [tauto|reflexivity].
  - destruct (THERMAL o); [|auto_derive; [tauto|reflexivity]].
    unfold E_2J, get_rhoJ. m3. cbn [Nat.add]. unfold at_time; cbv beta zeta. auto_derive; [repeat split; try (eexists; apply HQ); lra|]. rewrite !DQ. field. lra.
  - destruct (Z.ltb (-1) (REACTION P)); [|auto_derive; [tauto|reflexivity]].
    unfold E_R, at_time. auto_derive; [repeat split; try (eexists; apply HQ); lra|]. rewrite !DQ. field. lra.
Qed.

Hypothesis HM : PMULTI P = false.
Notation pr := (pressure o P solve_multi).
Lemma pressure_mg_curve : forall (r e : R -> R) r' e', is_derive r t0 r' -> is_derive e t0 e' ->
  eos_ok (prm P) (r t0) -> Gamma_MG (prm P) (r t0) <> 0 ->
  is_derive (fun t => pressure_mg (prm P) (r t) (e t)) t0
    (1 / dedp (prm P) (r t0) * (e' - dedrho (prm P) (r t0) (pressure_mg (prm P) (r t0) (e t0)) * r')).
Proof.
  intros r e r' e' Hr He K KG.
  assert (A := dp_ref_ok _ _ K). assert (B := de_ref_ok _ _ K). assert (C := dGamma_ok _ _ K).
  destruct K as (K1 & K2 & _).
  unfold pressure_mg.
  auto_derive; [repeat split; eexists; eassumption|].
  dd A; dd B; dd C; dd Hr; dd He. unfold dedp, dedrho. field. split; [assumption|lra].
Qed.
Lemma pressure_curve : is_derive (fun t => pr (Q t)) t0
  (1 / dedp (prm P) (Q t0 0%nat) * (de_curve - dedrho (prm P) (Q t0 0%nat) (pr (Q t0)) * q 0%nat)).
Proof.
  unfold pressure. rewrite HM.
  exact (pressure_mg_curve (fun t => Q t 0%nat) (fun t => internal_energy o P (Q t)) _ _ (HQ 0%nat) ie_curve OK HG).
Qed.
End Curve.
