(** A fluid at rest: the gas of the code, the walls, and what the iterator does to a state after a step. *)
From Coq Require Import Reals Lia Lra ZArith FunctionalExtensionality.
From Verif Require Import Base Options Sum Mat3 EqModel EqSpec WenoModel DgModel GridModel GridSpec PhysModel PhysInst UtilsModel UtilsProof UtilsProps IterModel IterProof2 RunModel RunProof2 FvBody RefSpec RefProof RefProof4 MirrorProof5 Ader3Props RestSpec RestProof RestProof2.
Import List ListNotations.
Open Scope R_scope.

(** ** no shear in a multiple of the identity *)
Section Gas.
Variable o : options.
Variable P : par.
Variable range : R -> Prop.
Hypothesis HD0 : forall r, range r -> r <> 0.
Variable E0 : R.
Lemma A_still q i j : resting E0 q -> (i < 3)%nat -> (j < 3)%nat -> get_A q i j = if Nat.eqb i j then q 5%nat else 0.
Proof using.
  intros [_ _ (H6 & H7 & H8 & H10 & H11 & H12) (H9 & H13)] Hi Hj. unfold get_A.
  destruct i as [|[|[|i]]]; try lia; (destruct j as [|[|[|j]]]; try lia); cbn [Nat.mul Nat.add Nat.eqb]; congruence.
Qed.
Lemma AdevG_still q i j : resting E0 q -> (i < 3)%nat -> (j < 3)%nat -> AdevG (get_A q) i j = 0.
Proof using.
  intros H Hi Hj. unfold AdevG, mmul, mtr, sum3. cbv zeta beta.
  destruct i as [|[|[|i]]]; try lia; (destruct j as [|[|[|j]]]; try lia); rewrite !(A_still q) by (exact H || lia); cbn [Nat.eqb]; field.
Qed.
Lemma devGsq_still q : resting E0 q -> devGsq (get_A q) = 0.
Proof using. intros H. unfold devGsq, dot3, sum3. cbv zeta. rewrite !(A_still q) by (exact H || lia). cbn [Nat.eqb]. field. Qed.
Lemma shear_still q i j : resting E0 q -> (i < 3)%nat -> (j < 3)%nat -> dEdA_s P q i j = 0.
Proof using. intros H Hi Hj. unfold dEdA_s, mscal. rewrite AdevG_still by assumption. ring. Qed.

Variables (K : rates) (sm : vec -> R * R * R) (specrad : mat -> R) (eigabs : EqModel.mat -> vec -> vec).
(** The fluid of the code with the law of a stiffened gas (with pINF = 0, an ideal gas), which does not react and on which no body force acts, whatever its viscosity law. *)
Theorem stiffened_gas_rests : VISCOUS o = true -> THERMAL o = false -> PMULTI P = false -> REACTION P = (-1)%Z -> kind (prm P) = STIFFENED_GAS -> (forall i, (i < 3)%nat -> body P i = 0) ->
  rests range (gpr o P sm specrad eigabs (source_or_zero o P K sm)) E0 ((gam (prm P) - 1) * (E0 - pINF (prm P)) - pINF (prm P)).
Proof using HD0.
  intros HV HT HM HR HK HB q Hq H0. apply HD0 in H0. cbn [EqModel.pressure EqModel.sigma EqModel.source gpr].
  split; [|split].
  - unfold PhysModel.pressure, internal_energy. rewrite HM, HV, HT, HR. cbn [Z.ltb Z.compare]. unfold E_2A, E_3, dot3, sum3, get_rhov. rewrite devGsq_still by exact Hq.
    destruct Hq as [HE (H2 & H3 & H4) _ _]. cbn [Nat.add]. rewrite H2, H3, H4, HE. unfold pressure_mg, Gamma_MG, p_ref, e_ref. rewrite HK. change (-1 <? -1)%Z with false. cbv iota. field. exact H0.
  - intros d i Hd Hi. unfold sigma_col, mvec, mscal, mtr, sum3. rewrite !(shear_still q) by (exact Hq || lia). ring.
  - intros k. unfold source_or_zero, full_source. rewrite HR. change (-1 <? -1)%Z with false; cbn [bind]. rewrite HV. destruct (theta1inv P q) as [th|]; [|reflexivity].
    unfold PhysModel.source. rewrite HV, HT, HR. change (-1 <? -1)%Z with false. cbv iota. unfold setseg.
    destruct (Nat.leb_spec 5 k) as [G|G]; cbn [andb].
    + destruct (Nat.ltb_spec k (5 + 9)) as [L|L].
      * rewrite (shear_still q) by (exact Hq || (apply Nat.mod_upper_bound; lia) || (apply Nat.div_lt_upper_bound; lia)). ring.
      * destruct (Nat.ltb_spec k (2 + 3)); [lia|]. rewrite Bool.andb_false_r. reflexivity.
    + destruct (Nat.leb_spec 2 k); cbn [andb]; [|reflexivity]. destruct (Nat.ltb_spec k (2 + 3)); [|reflexivity]. apply HB. lia.
Qed.

(** ** the walls: all but the moving one *)
Definition calm_wall (f : num -> num) : Prop := forall q, resting E0 q -> resting E0 (at_numbers f q) /\ at_numbers f q 0%nat = q 0%nat.
Lemma wall_still ds ty d : DESTRESS o = false -> (d < 3)%nat -> ty <> MOVING -> calm_wall (option_map (wall o ds ty d)).
Proof using.
  intros HD Hd HMo q [HE (H2 & H3 & H4) (H6 & H7 & H8 & H10 & H11 & H12) (H9 & H13)]. unfold at_numbers. cbn [option_map val].
  unfold wall. cbv zeta. rewrite HD. destruct (Nat.eqb_spec ty SLIP); [|destruct (Nat.eqb_spec ty STICK); [|destruct (Nat.eqb_spec ty MOVING); [contradiction|]]].
  all: destruct d as [|[|[|d]]]; try lia; (split; [split; repeat split|]); cbn [upd Nat.eqb Nat.add Nat.mul]; unfold upd; cbn [Nat.eqb Nat.add Nat.mul]; lra.
Qed.

(** ** after a step *)
Variable svd : mat3 -> vec3 * mat3.
Variable m : matpar.
Hypothesis HL : LSET o = 0%nat.
Hypothesis HM : mp_void m = false.
Hypothesis HV : VISCOUS o = true.
(** at rest, with the same density as before *)
Definition settled (q q' : vec) : Prop := resting E0 q -> resting E0 q' /\ q' 0%nat = q 0%nat.
Lemma settled_trans q q1 q2 : settled q q1 -> settled q1 q2 -> settled q q2.
Proof using. intros A B H. destruct (A H) as [H1 D1]. destruct (B H1) as [H2 D2]. split; [exact H2|congruence]. Qed.
Lemma scaled_still q c : settled q (setseg q 5 9 (fun k => q (5 + k)%nat * c)).
Proof using.
  intros [HE (H2 & H3 & H4) (H6 & H7 & H8 & H10 & H11 & H12) (H9 & H13)]. split; [|reflexivity]. split; repeat split; unfold setseg; cbn [Nat.leb Nat.ltb Nat.add Nat.sub andb];
    rewrite ?HE, ?H2, ?H3, ?H4, ?H6, ?H7, ?H8, ?H10, ?H11, ?H12, ?H9, ?H13; ring.
Qed.
Lemma renorm_still i q q' : renorm_cell o [m] i q = Ok q' -> settled q q'.
Proof using HL HM HV.
  intros E. unfold renorm_cell in E. replace (get_material_index o q) with 0%nat in E by (unfold get_material_index; rewrite HL; reflexivity).
  cbn [UtilsModel.get nth_error bind] in E. rewrite HM in E. destruct (Rlt_dec 0 (q 0%nat)).
  - unfold has_A in E. destruct (Nat.ltb (V o) 14); [discriminate|]. injection E as <-. apply scaled_still.
  - injection E as <-. intros H. split; [exact H|reflexivity].
Qed.
Lemma reset_still i q q' : reset_cell o [m] i q = Ok q' -> settled q q'.
Proof using HL HM HV.
  intros E H. unfold reset_cell in E. replace (get_material_index o q) with 0%nat in E by (unfold get_material_index; rewrite HL; reflexivity).
  cbn [UtilsModel.get nth_error bind] in E. rewrite HM in E. unfold has_A in E. destruct (Nat.ltb (V o) 14); [discriminate|]. unfold E_2A in E. rewrite (devGsq_still q H) in E. injection E as <-.
  destruct H as [HE (H2 & H3 & H4) _ _]. unfold set1, setseg. split; [|reflexivity]. split; repeat split; cbn [Nat.eqb Nat.leb Nat.ltb Nat.add andb]; try assumption. rewrite HE. ring.
Qed.
Lemma limit_still u : Forall2 settled u (limit_concentration o u).
Proof using HV.
  clear HL HM. unfold limit_concentration. destruct (MULTI o) eqn:EM.
  - induction u as [|q u IH]; cbn [map]; constructor; [|exact IH]. intros H.
    assert (X : (14 <= mV o)%nat) by (unfold mV; rewrite HV; cbn [b2n]; lia).
    assert (D : forall x y k, (k < 14)%nat -> set1 (set1 q (mV o) x) (mV o) y k = q k) by (intros x y k Hk; unfold set1; destruct (Nat.eqb_spec k (mV o)); [lia|reflexivity]).
    split; [|apply D; lia]. apply (resting_ext _ q); [intros; symmetry; apply D; assumption|exact H].
  - induction u; constructor; [intros H; split; [exact H|reflexivity]|assumption].
Qed.
Lemma each_still f : (forall i q q', f i q = Ok q' -> settled q q') -> forall u i u', each_cell f i u = Ok u' -> Forall2 settled u u'.
Proof using.
  intros H. induction u as [|q u IH]; intros i u' E; cbn [each_cell] in E; [injection E as <-; constructor|].
  apply bind_ok in E. destruct E as (q' & E1 & E). apply bind_ok in E. destruct E as (w & E2 & E). injection E as <-. constructor; [apply (H i), E1|apply (IH (S i)), E2].
Qed.
Lemma F2_trans a b c : Forall2 settled a b -> Forall2 settled b c -> Forall2 settled a c.
Proof using. intros H. revert c. induction H; intros c H'; inversion H'; subst; constructor; [eapply settled_trans; eassumption|auto]. Qed.
Lemma corrected_still c u u' : corrected o svd false m c u = Ok u' -> Forall2 settled u u'.
Proof using HL HM HV.
  intros E. unfold corrected in E. apply bind_ok in E. destruct E as (v & E1 & E). rewrite Bool.andb_false_r in E. injection E as <-.
  apply (F2_trans _ _ _ (limit_still u)), (each_still _ renorm_still _ _ _ E1).
Qed.
Lemma post_still tol c u u2 u' : corrected o svd false m c u = Ok u2 -> post o svd false tol m c u = Ok u' -> Forall2 settled u2 u'.
Proof using HL HM HV.
  intros EC E. unfold post in E. rewrite EC in E. cbn [bind] in E. apply bind_ok in E. destruct E as ([|] & _ & E).
  - apply (each_still _ reset_still _ _ _ E).
  - injection E as <-. clear. induction u2; constructor; [intros H; split; [exact H|reflexivity]|assumption].
Qed.
Lemma settled_Forall u u' : Forall2 settled u u' -> Forall (resting E0) u -> Forall (resting E0) u'.
Proof using. induction 1 as [|q q' u u' H F IH]; intros G; inversion G; subst; constructor; [apply H; assumption|auto]. Qed.
Lemma settled_nth u u' c : Forall2 settled u u' -> Forall (resting E0) u -> (c < length u)%nat -> nth c u' (fun _ => 0) 0%nat = nth c u (fun _ => 0) 0%nat.
Proof using.
  clear HL HM HV. intros H. revert c. induction H as [|q q' u u' H F IH]; intros c G Hc; [cbn in Hc; lia|]. inversion G; subst. destruct c as [|c]; cbn [nth]; [apply H; assumption|]. apply IH; [assumption|cbn in Hc; lia].
Qed.
End Gas.

(** ** where there is fluid depends on the densities alone *)
Section Solid.
Variable range : R -> Prop.
Variable o : options.
Variable E0 : R.
Variable wallf : nat -> nat -> num -> num.
Variable bt : nat -> nat.
Definition calm_walls (ndim : nat) : Prop := forall k, (k < 2 * ndim)%nat -> (1 < bt k)%nat -> total_cell (wallf (bt k) (k / 2)) /\ calm_wall E0 (wallf (bt k) (k / 2)).
Lemma extend1_density t0 t1 d n f g z : (forall y, (0 <= y < n)%Z -> exists q r, f y = Some q /\ g y = Some r /\ resting E0 q /\ resting E0 r /\ q 0%nat = r 0%nat) ->
  (1 < t0 -> total_cell (wallf t0 d) /\ calm_wall E0 (wallf t0 d))%nat -> (1 < t1 -> total_cell (wallf t1 d) /\ calm_wall E0 (wallf t1 d))%nat -> (0 < n)%Z -> (- n <= z < 2 * n)%Z ->
  exists q r, extend1 num wallf t0 t1 d n f z = Some q /\ extend1 num wallf t0 t1 d n g z = Some r /\ resting E0 q /\ resting E0 r /\ q 0%nat = r 0%nat.
Proof using.
  intros H H0 H1 Hn Hz. unfold extend1.
  assert (W : forall t y, (1 < t -> total_cell (wallf t d) /\ calm_wall E0 (wallf t d))%nat -> (1 < t)%nat -> (0 <= y < n)%Z ->
    exists q r, wallf t d (f y) = Some q /\ wallf t d (g y) = Some r /\ resting E0 q /\ resting E0 r /\ q 0%nat = r 0%nat).
  { intros t y Ht T Hy. destruct (Ht T) as [A B]. destruct (H y Hy) as (q & r & -> & -> & Hq & Hr & D). exists (at_numbers (wallf t d) q), (at_numbers (wallf t d) r).
    split; [apply total_at, A|]. split; [apply total_at, A|]. destruct (B q Hq) as [Bq Dq]. destruct (B r Hr) as [Br Dr]. split; [exact Bq|]. split; [exact Br|congruence]. }
  destruct (Z.ltb_spec z 0).
  - unfold ghost. destruct t0 as [|[|t0]].
    + apply H. lia.
    + apply H. pose proof (Z.mod_pos_bound z n ltac:(lia)). lia.
    + apply W; [exact H0|lia|lia].
  - destruct (Z.ltb_spec z n); [apply H; lia|]. unfold ghost. destruct t1 as [|[|t1]].
    + apply H. lia.
    + apply H. pose proof (Z.mod_pos_bound z n ltac:(lia)). lia.
    + apply W; [exact H1|lia|lia].
Qed.
Variables (nodes : list R) (bs : list PolyModel.poly).
Variables (SIG : nat -> nat -> R) (LAMS LAMC EPS : R) (inv : stencil -> (nat -> R) -> nat -> R).
Variable ENDVALS : nat -> nat -> R.
Notation N := (Options.N o).
Hypothesis HN : length nodes = N.
Hypothesis HW : WenoProps.weno_setup nodes bs inv SIG LAMS LAMC EPS.
Lemma dense1_ext b b' : (forall s, (s < N)%nat -> b s = b' s) -> dense1 range o ENDVALS b -> dense1 range o ENDVALS b'.
Proof using.
  clear. intros H [A B]. split; [intros s Hs; rewrite <- H by exact Hs; apply A, Hs|]. intros e He. rewrite (rsum_ext N _ (fun r => ENDVALS e r * b r)) by (intros; rewrite H by assumption; reflexivity). apply B, He.
Qed.
Lemma dense2_ext b b' : (forall s, (s < N ^ 2)%nat -> b s = b' s) -> dense2 range o ENDVALS b -> dense2 range o ENDVALS b'.
Proof using.
  clear. intros H [A B]. split; [intros s Hs; rewrite <- H by exact Hs; apply A, Hs|]. intros e s He Hs.
  assert (X : forall a c, (a < N)%nat -> (c < N)%nat -> (a * N + c < N ^ 2)%nat) by (intros a c Ha Hc; cbn; rewrite Nat.mul_1_r; apply WenoProof.pack_lt; assumption).
  rewrite (rsum_ext N (fun r => ENDVALS e r * b' (r * N + s)%nat) (fun r => ENDVALS e r * b (r * N + s)%nat)) by (intros; rewrite H by (apply X; assumption); reflexivity).
  rewrite (rsum_ext N (fun r => ENDVALS e r * b' (s * N + r)%nat) (fun r => ENDVALS e r * b (s * N + r)%nat)) by (intros; rewrite H by (apply X; assumption); reflexivity). apply B; assumption.
Qed.
Notation solid1 := (solid1 range o ENDVALS SIG LAMS LAMC EPS inv wallf bt).
Notation solid2 := (solid2 range o ENDVALS SIG LAMS LAMC EPS inv wallf bt).
Lemma solid1_density n x x' : (N <= n)%nat -> calm_walls 1 -> (forall c, (c < n)%nat -> resting E0 (x c) /\ resting E0 (x' c) /\ x c 0%nat = x' c 0%nat) -> solid1 n x -> solid1 n x'.
Proof using HN HW.
  intros Hn HC H HS z Hz. pose proof (N1 o nodes bs SIG LAMS LAMC EPS inv HN HW) as P. apply (dense1_ext (fun s => block1 N SIG LAMS LAMC EPS inv None (extended1 wallf bt n x) z s 0%nat)); [|apply HS, Hz].
  intros s Hs. unfold block1, after, before. apply (rec_ext o nodes bs SIG LAMS LAMC EPS inv HN HW); [|exact Hs]. intros k Hk. unfold extended1.
  destruct (extend1_density (bt 0%nat) (bt 1%nat) 0 (Z.of_nat n) (fun y => Some (x (Z.to_nat y))) (fun y => Some (x' (Z.to_nat y))) (z - Z.of_nat N + 1 + Z.of_nat k)) as (q & r & -> & -> & _ & _ & D); try lia.
  - intros y Hy. destruct (H (Z.to_nat y) ltac:(lia)) as (A & B & C). do 2 eexists. split; [reflexivity|]. split; [reflexivity|]. auto.
  - intros B. apply (HC 0%nat); [lia|exact B].
  - intros B. apply (HC 1%nat); [lia|exact B].
  - exact D.
Qed.
Lemma solid2_density nx ny x x' : (N <= nx)%nat -> (N <= ny)%nat -> calm_walls 2 -> (forall a b, (a < nx)%nat -> (b < ny)%nat -> resting E0 (x a b) /\ resting E0 (x' a b) /\ x a b 0%nat = x' a b 0%nat) -> solid2 nx ny x -> solid2 nx ny x'.
Proof using HN HW.
  intros Hn Hm HC H HS a b Ha Hb. pose proof (N1 o nodes bs SIG LAMS LAMC EPS inv HN HW) as P. apply (dense2_ext (fun s => block2 N SIG LAMS LAMC EPS inv None (extended2 wallf bt nx ny x) a b s 0%nat)); [|apply HS; assumption].
  intros s Hs. assert (S1 : (s / N < N)%nat) by (apply Nat.div_lt_upper_bound; cbn in Hs; lia). pose proof (Nat.mod_upper_bound s N ltac:(lia)) as S2.
  unfold block2, after, before. apply (rec_ext o nodes bs SIG LAMS LAMC EPS inv HN HW); [|exact S2]. intros l Hl. apply (rec_ext o nodes bs SIG LAMS LAMC EPS inv HN HW); [|exact S1]. intros k Hk.
  unfold extended2, extend2.
  destruct (extend1_density (bt 2%nat) (bt 3%nat) 1 (Z.of_nat ny)
    (fun y => extend1 num wallf (bt 0%nat) (bt 1%nat) 0 (Z.of_nat nx) (fun c => Some (x (Z.to_nat c) (Z.to_nat y))) (a - Z.of_nat N + 1 + Z.of_nat k))
    (fun y => extend1 num wallf (bt 0%nat) (bt 1%nat) 0 (Z.of_nat nx) (fun c => Some (x' (Z.to_nat c) (Z.to_nat y))) (a - Z.of_nat N + 1 + Z.of_nat k)) (b - Z.of_nat N + 1 + Z.of_nat l)) as (q & r & Eq & Er & _ & _ & D); try lia.
  - intros y Hy. apply extend1_density; try lia.
    + intros c Hc. destruct (H (Z.to_nat c) (Z.to_nat y) ltac:(lia) ltac:(lia)) as (A & B & C). do 2 eexists. split; [reflexivity|]. split; [reflexivity|]. auto.
    + intros B. apply (HC 0%nat); [lia|exact B].
    + intros B. apply (HC 1%nat); [lia|exact B].
  - intros B. apply (HC 2%nat); [lia|exact B].
  - intros B. apply (HC 3%nat); [lia|exact B].
  - rewrite Eq, Er. exact D.
Qed.
End Solid.
