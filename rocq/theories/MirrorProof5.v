(** The constitutive functions of the code, its walls and its changes of variables commute with the mirror. *)
From Coq Require Import Reals Lia Lra ZArith FunctionalExtensionality.
From Verif Require Import Base Options Sum Mat3 EqModel FvModel FvBody GridModel PhysModel PhysInst PhysProof2 WenoModel UtilsProof RefSpec MirrorSpec MirrorProof2 MirrorProof3.
Import List ListNotations.
Open Scope R_scope.

Section Physics.
Variable o : options.
Variable P : par.
Variable K : rates.
Variable solve_multi : vec -> R * R * R.
Notation T := (mirror o).
Notation MP := (prm P).
Notation pressure := (PhysModel.pressure o P solve_multi).
Notation temperature := (PhysModel.temperature o P solve_multi).
Hypothesis HM : MULTI o = false.
Hypothesis HV : VISCOUS o = true.
Hypothesis HPM : PMULTI P = false.
Hypothesis HR : Z.ltb (-1) (REACTION P) = false.

Definition flip3 (i : nat) : R := match i with O => -1 | _ => 1 end.
Lemma A_mirror q i j : (i < 3)%nat -> (j < 3)%nat -> get_A (T q) i j = flip3 i * flip3 j * get_A q i j.
Proof using.
  clear. intros Hi Hj. unfold get_A, mirror, sign. destruct i as [|[|[|i]]]; try lia; (destruct j as [|[|[|j]]]; try lia; cbn; ring).
Qed.
Lemma rhov_mirror q i : (i < 3)%nat -> get_rhov (T q) i = flip3 i * get_rhov q i.
Proof using. clear. intros Hi. unfold get_rhov, mirror, sign. destruct i as [|[|[|i]]]; try lia; cbn; ring. Qed.
Lemma rhoJ_mirror q i : (i < 3)%nat -> THERMAL o = true -> get_rhoJ (T q) i = flip3 i * get_rhoJ q i.
Proof using. clear. intros Hi HT. unfold get_rhoJ, mirror, sign. destruct i as [|[|[|i]]]; try lia; cbn; rewrite ?HT; ring. Qed.
Lemma at0 q : T q 0%nat = q 0%nat. Proof using. unfold mirror, sign. ring. Qed.
Lemma at1 q : T q 1%nat = q 1%nat. Proof using. unfold mirror, sign. ring. Qed.
Lemma dev_mirror q : devGsq (get_A (T q)) = devGsq (get_A q).
Proof using. clear. unfold devGsq, dot3, sum3. rewrite !A_mirror by lia. cbn [flip3]. field. Qed.
Lemma kin_mirror q (r : R) : E_3 (fun i => get_rhov (T q) i / r) = E_3 (fun i => get_rhov q i / r).
Proof using. clear. unfold E_3, dot3, sum3. rewrite !rhov_mirror by lia. cbn [flip3]. unfold Rdiv. ring. Qed.
Lemma heat_mirror q (r : R) : THERMAL o = true -> E_2J P (fun i => get_rhoJ (T q) i / r) = E_2J P (fun i => get_rhoJ q i / r).
Proof using. clear. intros HT. unfold E_2J, dot3, sum3. rewrite !rhoJ_mirror by (assumption || lia). cbn [flip3]. unfold Rdiv. ring. Qed.
Lemma energy_mirror q : internal_energy o P (T q) = internal_energy o P q.
Proof using HR.
  unfold internal_energy. rewrite HR, at0, at1, kin_mirror. unfold E_2A. rewrite dev_mirror. destruct (THERMAL o) eqn:E; [rewrite heat_mirror by exact E|]; reflexivity.
Qed.
Lemma pressure_mirror q : pressure (T q) = pressure q.
Proof using HPM HR. unfold PhysModel.pressure. rewrite HPM, energy_mirror, at0. reflexivity. Qed.
Lemma temperature_mirror q : temperature (T q) = temperature q.
Proof using HPM HR. unfold PhysModel.temperature. rewrite pressure_mirror, at0. reflexivity. Qed.
Lemma AdevG_mirror q i j : (i < 3)%nat -> (j < 3)%nat -> AdevG (get_A (T q)) i j = flip3 i * flip3 j * AdevG (get_A q) i j.
Proof using.
  clear. intros Hi Hj. unfold AdevG, mmul, mtr, sum3. rewrite !A_mirror by lia.
  destruct i as [|[|[|i]]]; try lia; (destruct j as [|[|[|j]]]; try lia; cbn [flip3 Nat.eqb]; field).
Qed.
Lemma dEdA_mirror q i j : (i < 3)%nat -> (j < 3)%nat -> dEdA_s P (T q) i j = flip3 i * flip3 j * dEdA_s P q i j.
Proof using. clear. intros Hi Hj. unfold dEdA_s, mscal. rewrite AdevG_mirror, at0 by assumption. ring. Qed.
Lemma flip_sq i : flip3 i * flip3 i = 1.
Proof using. clear. destruct i; cbn; ring. Qed.
Lemma sigma_col_mirror q d i : (d < 3)%nat -> (i < 3)%nat -> sigma_col P (T q) d i = flip3 d * flip3 i * sigma_col P q d i.
Proof using.
  clear. intros Hd Hi. unfold sigma_col, mvec, mscal, mtr, sum3. rewrite !dEdA_mirror, !A_mirror, at0 by lia.
  pose proof (flip_sq 0) as F0. pose proof (flip_sq 1) as F1. pose proof (flip_sq 2) as F2. cbn [flip3]. ring.
Qed.
Lemma sigma_mirror q i j : (i < 3)%nat -> (j < 3)%nat -> PhysModel.sigma P (T q) i j = flip3 i * flip3 j * PhysModel.sigma P q i j.
Proof using.
  clear. intros Hi Hj. unfold PhysModel.sigma, mmul, mscal, mtr, sum3. rewrite !dEdA_mirror, !A_mirror, at0 by lia. cbn [flip3]. ring.
Qed.
Lemma sigma_norm_mirror q : sigma_norm (PhysModel.sigma P (T q)) = sigma_norm (PhysModel.sigma P q).
Proof using. clear. unfold sigma_norm. rewrite !sigma_mirror by lia. cbn [flip3]. f_equal. ring. Qed.
Lemma frobnorm_mirror q : frobnorm (PhysModel.sigma P (T q)) = frobnorm (PhysModel.sigma P q).
Proof using. clear. unfold frobnorm, frob3, sum3. rewrite !sigma_mirror by lia. cbn [flip3]. f_equal. ring. Qed.
Lemma det_mirror q : det3 (get_A (T q)) = det3 (get_A q).
Proof using. clear. unfold det3. rewrite !A_mirror by lia. cbn [flip3]. ring. Qed.
Lemma theta1_mirror q : theta1inv P (T q) = theta1inv P q.
Proof using. clear. unfold theta1inv. rewrite det_mirror, at0, sigma_norm_mirror, frobnorm_mirror. reflexivity. Qed.
Lemma theta2_mirror q : theta2inv o P solve_multi (T q) = theta2inv o P solve_multi q.
Proof using HPM HR. unfold theta2inv. rewrite temperature_mirror, at0. reflexivity. Qed.

(** the source as the solvers use it, where it is finite *)
Definition source_or_zero (q : vec) : vec := match full_source o P K solve_multi q with Ok (Some w) => w | _ => fun _ => 0 end.
Lemma source_mirror q : body P 0%nat = 0 -> source_or_zero (T q) = T (source_or_zero q).
Proof using HM HV HPM HR.
  intros HB. unfold source_or_zero, full_source. rewrite HR. cbn [bind]. rewrite HV, theta1_mirror. destruct (theta1inv P q) as [th|]; [|apply functional_extensionality; intros; unfold mirror; ring].
  unfold PhysModel.source. rewrite HV, HR. rewrite theta2_mirror, at0. apply functional_extensionality. intros k.
  assert (X : forall k, setseg (setseg (fun _ => 0) 2 3 (body P)) 5 9 (fun k => - dEdA_s P (T q) (k / 3)%nat (k mod 3)%nat * th) k =
     sign o k * setseg (setseg (fun _ => 0) 2 3 (body P)) 5 9 (fun k => - dEdA_s P q (k / 3)%nat (k mod 3)%nat * th) k).
  { clear k. intros k. destruct (Nat.lt_ge_cases k 14) as [Hk|Hk].
    - do 14 (destruct k as [|k]; [unfold setseg; cbn [Nat.leb Nat.ltb Nat.add andb Nat.sub]; try (rewrite (dEdA_mirror q) by (cbn; lia)); cbn; rewrite ?HB; ring|]). lia.
    - unfold setseg. destruct (Nat.ltb_spec k (5 + 9)); [lia|]. destruct (Nat.ltb_spec k (2 + 3)); [lia|]. rewrite !Bool.andb_false_r. ring. }
  match goal with |- _ = mirror o ?Y k => change (mirror o Y k) with (sign o k * Y k) end. destruct (THERMAL o) eqn:HT; [|apply X].
  destruct (Nat.lt_ge_cases k 14) as [H|H]; [rewrite !(setseg_out _ 14) by lia; apply X|]. destruct (Nat.lt_ge_cases k 17) as [H'|H']; [|rewrite !(setseg_out _ 14) by lia; apply X].
  rewrite !(setseg_in _ 14) by lia. unfold dEdJ. rewrite rhoJ_mirror, at0 by (assumption || lia). destruct k as [|[|[|[|[|[|[|[|[|[|[|[|[|[|[|[|[|k]]]]]]]]]]]]]]]]]; try lia; cbn; rewrite ?HT; unfold Rdiv; ring.
Qed.

(** the wave speeds: the tensor changes by a similarity *)
Variable specrad : mat -> R.
Definition similar_invariant : Prop := forall (t : nat -> R) (M : mat), (forall i, t i * t i = 1) -> specrad (fun i j => t i * M i j * t j) = specrad M.
Hypothesis HS : similar_invariant.
Definition flip4 (i : nat) : R := match i with 0%nat | 3%nat => -1 | _ => 1 end.
Definition cols (k : nat) : R := match k with 0%nat | 1%nat | 2%nat => -1 | _ => 1 end.
Lemma dsigmadrho_mirror q i : (i < 3)%nat -> dsigmadrho P (T q) 0 i = - flip3 i * dsigmadrho P q 0 i.
Proof using. clear. intros Hi. unfold dsigmadrho. rewrite sigma_col_mirror, at0 by lia. cbn [flip3]. ring. Qed.
Lemma dsigmadA_mirror q i j : (i < 3)%nat -> (j < 3)%nat -> dsigmadA_dir P (T q) 0 i j = flip3 i * flip3 j * dsigmadA_dir P q 0 i j.
Proof using.
  clear. intros Hi Hj. unfold dsigmadA_dir, mmul, mtr, sum3. rewrite AdevG_mirror, !A_mirror, at0 by lia.
  destruct i as [|[|[|i]]]; try lia; (destruct j as [|[|[|j]]]; try lia; cbn [flip3 Nat.eqb]; field).
Qed.
Lemma c0_mirror q : c_0 o P solve_multi (T q) = c_0 o P solve_multi q.
Proof using HPM HR.
  unfold c_0, dEdrho, dEdp. rewrite HPM, at0, pressure_mirror, dev_mirror. reflexivity.
Qed.
Lemma Xi1_mirror r p q i k : (k < 5)%nat -> Xi1 o P r p (T q) 0 i k = flip4 i * cols k * Xi1 o P r p q 0 i k.
Proof using HV.
  intros Hk. destruct (Nat.lt_ge_cases i 4) as [Hi|Hi].
  - unfold Xi1. rewrite HV. destruct i as [|[|[|[|i]]]]; try lia; (destruct k as [|[|[|[|[|k]]]]]; try lia); destruct (THERMAL o); unfold setblock; cbn [Nat.leb Nat.ltb Nat.add Nat.sub andb];
      try rewrite dsigmadrho_mirror by lia; try rewrite dsigmadA_mirror by lia; cbn [flip3 flip4 cols]; ring.
  - assert (Z : forall q, Xi1 o P r p q 0 i k = 0).
    { intros q'. destruct i as [|[|[|[|i]]]]; try lia. unfold Xi1, setblock. rewrite HV. destruct (THERMAL o); reflexivity. }
    rewrite !Z. ring.
Qed.
Lemma Xi2_mirror r p q k j : (k < 5)%nat -> Xi2 o P solve_multi r p (T q) 0 k j = cols k * flip4 j * Xi2 o P solve_multi r p q 0 k j.
Proof using HV HPM HR.
  intros Hk. destruct (Nat.lt_ge_cases j 4) as [Hj|Hj].
  - unfold Xi2. rewrite HV, c0_mirror. destruct j as [|[|[|[|j]]]]; try lia; (destruct k as [|[|[|[|[|k]]]]]; try lia); destruct (THERMAL o); unfold setblock, addblock; cbn [Nat.leb Nat.ltb Nat.add Nat.sub andb];
      try rewrite sigma_col_mirror by lia; try rewrite dsigmadrho_mirror by lia; try rewrite A_mirror by lia; cbn [flip3 flip4 cols]; ring.
  - assert (Z : forall q, Xi2 o P solve_multi r p q 0 k j = 0).
    { intros q'. destruct j as [|[|[|[|j]]]]; try lia. unfold Xi2, setblock, addblock. rewrite HV. destruct k as [|[|[|[|[|k]]]]]; try lia; destruct (THERMAL o); cbn; ring. }
    rewrite !Z. ring.
Qed.
Lemma tensor_mirror q : thermo_acoustic_tensor o P solve_multi (T q) 0 = fun i j => flip4 i * thermo_acoustic_tensor o P solve_multi q 0 i j * flip4 j.
Proof using HV HPM HR.
  apply functional_extensionality; intros i. apply functional_extensionality; intros j. unfold thermo_acoustic_tensor. rewrite at0, pressure_mirror.
  transitivity (rsum 5 (fun k => (flip4 i * flip4 j) * (Xi1 o P (q 0%nat) (pressure q) q 0 i k * Xi2 o P solve_multi (q 0%nat) (pressure q) q 0 k j))); [|rewrite rsum_scal; ring].
  apply rsum_ext. intros k Hk. rewrite Xi1_mirror, Xi2_mirror by exact Hk. assert (C : cols k * cols k = 1) by (destruct k as [|[|[|k]]]; cbn; ring).
  match goal with |- _ = ?e => transitivity (cols k * cols k * e); [ring|rewrite C; ring] end.
Qed.
Lemma speed_mirror q : max_abs_eigs o P solve_multi specrad (T q) 0 = max_abs_eigs o P solve_multi specrad q 0.
Proof using HV HPM HR HS.
  unfold max_abs_eigs. rewrite tensor_mirror, HS by (intros [|[|[|[|]]]]; cbn; ring). rewrite at0. change (T q (2 + 0)%nat) with (-1 * q (2 + 0)%nat). cbn [Nat.add]. set (v := q 2%nat). set (r := q 0%nat).
  replace (-1 * v / r) with (- (v / r)) by (unfold Rdiv; ring). destruct (Rlt_dec 0 (- (v / r))), (Rlt_dec 0 (v / r)); lra.
Qed.
(** with the Rusanov flux *)
Theorem gpr_mirrors eigabs : body P 0%nat = 0 -> mirrors o (gpr o P solve_multi specrad eigabs source_or_zero) 0.
Proof using HM HV HPM HR HS.
  intros HB. split; cbn [EqModel.pressure EqModel.sigma EqModel.source EqModel.max_abs_eigs gpr].
  - apply pressure_mirror.
  - intros q j Hj. rewrite sigma_col_mirror by lia. destruct j as [|j]; cbn [flip3]; ring.
  - intros q. apply source_mirror, HB.
  - apply speed_mirror.
  - intros X. destruct (X eq_refl).
  - intros X. destruct (X eq_refl).
Qed.

(** ** Changes of variables *)
Lemma Pvec_mirror q : Pvec o P solve_multi (T q) = T (Pvec o P solve_multi q).
Proof using HM HPM HR.
  unfold Pvec. rewrite HM, pressure_mirror, at0. apply functional_extensionality. intros k. match goal with |- _ = mirror o ?Y k => change (mirror o Y k) with (sign o k * Y k) end.
  destruct (Nat.lt_ge_cases k 17) as [H|H].
  - do 17 (destruct k as [|k]; [destruct (THERMAL o) eqn:E; unfold setseg, set1, mirror, sign; cbn; rewrite ?E; unfold Rdiv; ring|]). lia.
  - destruct (THERMAL o); rewrite ?(setseg_out _ 14), ?(setseg_out _ 2), ?set1_other by lia; reflexivity.
Qed.
Lemma total_mirror q p : total_energy P (q 0%nat) p (get_A (T q)) (if THERMAL o then Some (get_rhoJ (T q)) else None) (get_rhov (T q)) None =
  total_energy P (q 0%nat) p (get_A q) (if THERMAL o then Some (get_rhoJ q) else None) (get_rhov q) None.
Proof using.
  clear. unfold total_energy, E_2A. rewrite dev_mirror. f_equal. assert (X : E_3 (get_rhov (T q)) = E_3 (get_rhov q)).
  { unfold E_3, dot3, sum3. rewrite !rhov_mirror by lia. cbn [flip3]. field. }
  rewrite X. f_equal. destruct (THERMAL o) eqn:E; [|reflexivity]. unfold E_2J, dot3, sum3. rewrite !rhoJ_mirror by (assumption || lia). cbn [flip3]. field.
Qed.
Lemma Cvec_mirror q : Cvec o P (T q) = T (Cvec o P q).
Proof using HM.
  unfold Cvec. rewrite HM, at0, at1, total_mirror. apply functional_extensionality. intros k. match goal with |- _ = mirror o ?Y k => change (mirror o Y k) with (sign o k * Y k) end.
  destruct (Nat.lt_ge_cases k 17) as [H|H].
  - do 17 (destruct k as [|k]; [destruct (THERMAL o) eqn:E; unfold setseg, set1, mirror, sign; cbn; rewrite ?E; unfold Rdiv; ring|]). lia.
  - destruct (THERMAL o); rewrite ?(setseg_out _ 14), ?(setseg_out _ 2), ?set1_other by lia; reflexivity.
Qed.
End Physics.

(** ** Walls (grid.cpp 26-63), at the ends of a line *)
Section Walls.
Variable o : options.
Notation T := (mirror o).
Variable ds : vec -> vec.
(** without heat conduction the symmetric wall shows the mirror image *)
Lemma symmetric_wall q : THERMAL o = false -> wall o ds SYMMETRIC 0 q = T q.
Proof.
  intros HT. apply functional_extensionality. intros k. unfold wall, mirror, sign. cbn [Nat.eqb SYMMETRIC SLIP STICK MOVING].
  destruct (Nat.lt_ge_cases k 15) as [H|H].
  - do 15 (destruct k as [|k]; [unfold upd; cbn; rewrite ?HT; ring|]). lia.
  - do 15 (destruct k as [|k]; [lia|]). unfold upd. cbn. ring.
Qed.
Lemma slip_wall_keeps q : (DESTRESS o = true -> forall q, ds (T q) = T (ds q)) -> wall o ds SLIP 0 (T q) = T (wall o ds SLIP 0 q).
Proof.
  intros HD. unfold wall. cbn [Nat.eqb SLIP]. assert (X : upd (T q) (2 + 0) (- T q (2 + 0)%nat) = T (upd q (2 + 0) (- q (2 + 0)%nat))).
  { apply functional_extensionality. intros k. unfold upd, mirror, sign. cbn [Nat.add]. destruct (Nat.eqb_spec k 2) as [->|]; ring. }
  rewrite X. destruct (DESTRESS o); [apply HD|]; reflexivity.
Qed.
Lemma stick_wall_keeps q : (DESTRESS o = true -> forall q, ds (T q) = T (ds q)) -> wall o ds STICK 0 (T q) = T (wall o ds STICK 0 q).
Proof.
  intros HD. unfold wall. cbn [Nat.eqb STICK SLIP]. set (f := fun q : vec => upd (upd (upd q 2 (- q 2%nat)) 3 (- upd q 2 (- q 2%nat) 3%nat)) 4 (- upd (upd q 2 (- q 2%nat)) 3 (- upd q 2 (- q 2%nat) 3%nat) 4%nat)).
  assert (X : f (T q) = T (f q)).
  { unfold f. apply functional_extensionality. intros k. unfold upd, mirror, sign. cbn. destruct (Nat.eqb_spec k 4) as [->|]; [ring|]. destruct (Nat.eqb_spec k 3) as [->|]; [ring|]. destruct (Nat.eqb_spec k 2) as [->|]; ring. }
  change ((if DESTRESS o then ds (f (T q)) else f (T q)) = T (if DESTRESS o then ds (f q) else f q)). rewrite X. destruct (DESTRESS o); [apply HD|]; reflexivity.
Qed.
(** with heat conduction it does not: the thermal impulse keeps its direction *)
Lemma symmetric_wall_thermal : THERMAL o = true -> wall o ds SYMMETRIC 0 (fun _ => 1) 14%nat <> T (fun _ => 1) 14%nat.
Proof. intros HT. unfold wall, mirror, sign. cbn. rewrite HT. unfold upd. cbn. lra. Qed.
(** ... nor does the moving wall commute with the mirror: it drags the fluid the same way at either end *)
Lemma moving_wall : DESTRESS o = false -> exists q, wall o ds MOVING 0 (T q) <> T (wall o ds MOVING 0 q).
Proof. intros HD. exists (fun _ => 1). intros X. apply (f_equal (fun f => f 2%nat)) in X. revert X. unfold wall, mirror, sign. rewrite HD. cbn. unfold upd. cbn. lra. Qed.
End Walls.
