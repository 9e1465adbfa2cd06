(** Plane motion stays plane: the material of the code, its walls, its relaxation, and what the iterator does to a state after a step. *)
From Coq Require Import Reals Lia Lra ZArith FunctionalExtensionality.
From Verif Require Import Base Options Sum Mat3 EqModel EqSpec WenoModel DgModel GridModel GridSpec PhysModel PhysInst PhysSpec PhysProof PhysProof2 UtilsModel UtilsProof UtilsProps IterModel IterProof2 RunModel RunProof2 FvBody RelaxModel RelaxSpec FrameSpec FrameProof FrameProps Split3Props
  RefSpec RefProof RefProof4 MirrorProof5 Ader3Props PlaneSpec PlaneProof.
Import List ListNotations.
Open Scope R_scope.

(** reversing direction e *)
Definition reversal (e : nat) : mat3 := fun i j => if Nat.eqb i j then (if Nat.eqb i e then -1 else 1) else 0.
Definition reversed (e : nat) (A : mat3) : mat3 := mmul (mmul (reversal e) A) (mtr (reversal e)).
Lemma reversal_orthogonal e : (e < 3)%nat -> orthogonal (reversal e).
Proof. intros He. split; intros i j Hi Hj; idx3 i; idx3 j; destruct e as [|[|[|]]]; try lia; unfold reversal; m3; cbn; ring. Qed.

Section Code.
Variable o : options.
Variable e : nat.
Hypothesis He : (e < 3)%nat.
Hypothesis HV : VISCOUS o = true.
Notation plane := (plane o e).

Lemma A_plane q i j : plane q -> (i < 3)%nat -> (j < 3)%nat -> xorb (Nat.eqb i e) (Nat.eqb j e) = true -> get_A q i j = 0.
Proof using He.
  intros H Hi Hj X. unfold get_A. destruct (Nat.eqb_spec i e) as [->|Ni], (Nat.eqb_spec j e) as [->|Nj]; try discriminate X; apply H; [apply across_row|apply across_col]; assumption.
Qed.
Lemma AdevG_plane q i j : plane q -> (i < 3)%nat -> (j < 3)%nat -> xorb (Nat.eqb i e) (Nat.eqb j e) = true -> AdevG (get_A q) i j = 0.
Proof using He.
  intros H Hi Hj X. pose proof (A_plane q) as Z. unfold AdevG, mmul, mtr, sum3. cbv zeta beta. set (t := _ / 3). clearbody t.
  destruct e as [|[|[|]]]; try lia; destruct i as [|[|[|]]]; try lia; (destruct j as [|[|[|]]]; try lia); try discriminate X;
    repeat match goal with |- context [get_A q ?a ?b] => first [rewrite (Z a b H ltac:(lia) ltac:(lia) eq_refl) | generalize (get_A q a b); intro] end; cbn [Nat.eqb]; ring.
Qed.
Lemma shear_plane P q i j : plane q -> (i < 3)%nat -> (j < 3)%nat -> xorb (Nat.eqb i e) (Nat.eqb j e) = true -> dEdA_s P q i j = 0.
Proof using He. intros H Hi Hj X. unfold dEdA_s, mscal. rewrite AdevG_plane by assumption. ring. Qed.

(** The material of the code, without a chemical reaction and without a body force out of the plane, whatever its equation of state and its viscosity law. *)
Theorem code_planar P K sm specrad eigabs : (REACTION P < 0)%Z -> body P e = 0 -> planar o (gpr o P sm specrad eigabs (source_or_zero o P K sm)) e.
Proof using He HV.
  intros HR HB q Hq. cbn [EqModel.sigma EqModel.source gpr]. split.
  - intros d Hd Hde. unfold sigma_col, mvec, mscal, mtr, sum3.
    assert (X : forall k, (k < 3)%nat -> dEdA_s P q k e * get_A q k d = 0).
    { intros k Hk. destruct (Nat.eqb_spec k e) as [->|Hne].
      - rewrite (A_plane q e d Hq He Hd); [ring|]. rewrite Nat.eqb_refl. destruct (Nat.eqb_spec d e); [contradiction|reflexivity].
      - rewrite (shear_plane P q k e Hq Hk He); [ring|]. rewrite Nat.eqb_refl. destruct (Nat.eqb_spec k e); [contradiction|reflexivity]. }
    pose proof (X 0%nat ltac:(lia)) as X0. pose proof (X 1%nat ltac:(lia)) as X1. pose proof (X 2%nat ltac:(lia)) as X2.
    replace (- q 0%nat * dEdA_s P q 0%nat e * get_A q 0%nat d + - q 0%nat * dEdA_s P q 1%nat e * get_A q 1%nat d + - q 0%nat * dEdA_s P q 2%nat e * get_A q 2%nat d)
      with (- q 0%nat * (dEdA_s P q 0%nat e * get_A q 0%nat d + dEdA_s P q 1%nat e * get_A q 1%nat d + dEdA_s P q 2%nat e * get_A q 2%nat d)) by ring. rewrite X0, X1, X2. ring.
  - intros k Hk. unfold source_or_zero, full_source. assert (HR' : Z.ltb (-1) (REACTION P) = false) by (apply Z.ltb_ge; lia). rewrite HR'. cbn [bind]. rewrite HV. destruct (theta1inv P q) as [th|]; [|reflexivity].
    unfold PhysModel.source. rewrite HV, HR'.
    pose proof (across_cases o e He k Hk) as C. destruct C as [->|[(j & Hj & Hne & E)|[T ->]]].
    + assert (X : setseg (setseg (fun _ => 0) 2 3 (body P)) 5 9 (fun k => - dEdA_s P q (k / 3)%nat (k mod 3)%nat * th) (2 + e)%nat = 0) by (rewrite setseg_out by lia; rewrite setseg_in by lia; replace (2 + e - 2)%nat with e by lia; exact HB).
      destruct (THERMAL o); [rewrite setseg_out by lia|]; exact X.
    + assert (R5 : (5 <= k < 14)%nat) by lia.
      assert (X : setseg (setseg (fun _ => 0) 2 3 (body P)) 5 9 (fun k => - dEdA_s P q (k / 3)%nat (k mod 3)%nat * th) k = 0).
      { rewrite setseg_in by lia.
        assert (D : exists a b, (k - 5 = 3 * a + b)%nat /\ (a < 3)%nat /\ (b < 3)%nat /\ xorb (Nat.eqb a e) (Nat.eqb b e) = true).
        { destruct E as [E|E]; [exists e, j|exists j, e]; (split; [lia|]); (split; [lia|]); (split; [lia|]); rewrite Nat.eqb_refl; destruct (Nat.eqb_spec j e); try contradiction; reflexivity. }
        destruct D as (a & b & D & Ha & Hb & XB). rewrite D. replace ((3 * a + b) / 3)%nat with a by (apply (Nat.div_unique _ 3 a b); lia). replace ((3 * a + b) mod 3)%nat with b by (apply (Nat.mod_unique _ 3 a b); lia).
        rewrite (shear_plane P q a b) by assumption. ring. }
      destruct (THERMAL o); [rewrite setseg_out by lia|]; exact X.
    + rewrite T. rewrite setseg_in by lia. replace (14 + e - 14)%nat with e by lia. unfold dEdJ, get_rhoJ. rewrite (Hq _ (across_J o e T)). unfold Rdiv. ring.
Qed.

(** every wall of the code, at the ends of a line or of a plane that does not contain direction e; the moving wall moves along the first axis *)
Theorem wall_plane ds ty d : DESTRESS o = false -> (1 <= e)%nat -> (d < e)%nat -> keeps o e (option_map (wall o ds ty d)).
Proof using He.
  intros HD H1 Hd q Hq k Hk. unfold at_numbers. cbn [option_map val]. pose proof (Hq k Hk) as Q0. pose proof (across_cases o e He k Hk) as C.
  assert (N1 : k <> 1%nat) by (destruct C as [->|[(j & Hj & Hne & [->| ->])|[_ ->]]]; lia). assert (N2 : k <> 2%nat) by (destruct C as [->|[(j & Hj & Hne & [->| ->])|[_ ->]]]; lia).
  assert (U : forall (r : vec) i, r k = 0 -> upd r i (- r i) k = 0) by (intros r i Hr; unfold upd; destruct (Nat.eqb_spec k i) as [<-|_]; [rewrite Hr; ring|exact Hr]).
  assert (U' : forall (r : vec) i x, k <> i -> r k = 0 -> upd r i x k = 0) by (intros r i x Hi Hr; unfold upd; destruct (Nat.eqb_spec k i); [contradiction|exact Hr]).
  unfold wall. cbv zeta. rewrite HD. destruct (Nat.eqb ty SLIP); [apply U, Q0|]. destruct (Nat.eqb ty STICK); [do 3 apply U; exact Q0|]. destruct (Nat.eqb ty MOVING); [do 2 (apply U'; [assumption|]); do 3 apply U; exact Q0|].
  do 7 apply U. exact Q0.
Qed.

(** ** after a step *)
Variable m : matpar.
Variable svd : mat3 -> vec3 * mat3.
Hypothesis HL : LSET o = 0%nat.
Hypothesis HM : mp_void m = false.
Lemma scaled_plane q c : plane q -> plane (setseg q 5 9 (fun k => q (5 + k)%nat * c)).
Proof using.
  clear. intros H k Hk. unfold setseg. destruct (Nat.leb_spec 5 k) as [G|G]; cbn [andb]; [|apply H, Hk]. destruct (Nat.ltb_spec k (5 + 9)); [|apply H, Hk]. replace (5 + (k - 5))%nat with k by lia. rewrite (H k Hk). ring.
Qed.
Lemma renorm_plane i q q' : renorm_cell o [m] i q = Ok q' -> plane q -> plane q'.
Proof using HL HM HV.
  intros E H. unfold renorm_cell in E. replace (get_material_index o q) with 0%nat in E by (unfold get_material_index; rewrite HL; reflexivity).
  cbn [UtilsModel.get nth_error bind] in E. rewrite HM in E. destruct (Rlt_dec 0 (q 0%nat)).
  - unfold has_A in E. destruct (Nat.ltb (V o) 14); [discriminate|]. injection E as <-. apply scaled_plane, H.
  - injection E as <-. exact H.
Qed.
Lemma reset_plane i q q' : reset_cell o [m] i q = Ok q' -> plane q -> plane q'.
Proof using HL HM HV He.
  intros E H. unfold reset_cell in E. replace (get_material_index o q) with 0%nat in E by (unfold get_material_index; rewrite HL; reflexivity).
  cbn [UtilsModel.get nth_error bind] in E. rewrite HM in E. unfold has_A in E. destruct (Nat.ltb (V o) 14); [discriminate|]. injection E as <-.
  intros k Hk. pose proof (H k Hk) as Q0. pose proof (across_cases o e He k Hk) as C.
  assert (N : (k <> 1 /\ k <> 5 /\ k <> 9 /\ k <> 13)%nat) by (destruct C as [->|[(j & Hj & Hne & [->| ->])|[_ ->]]]; lia).
  unfold set1, setseg. destruct N as (N1 & N5 & N9 & N13).
  rewrite (proj2 (Nat.eqb_neq k 13) N13), (proj2 (Nat.eqb_neq k 9) N9), (proj2 (Nat.eqb_neq k 5) N5). destruct (_ && _)%bool; [reflexivity|]. rewrite (proj2 (Nat.eqb_neq k 1) N1). exact Q0.
Qed.
Lemma limit_plane u : Forall plane u -> Forall plane (limit_concentration o u).
Proof using HV He.
  clear HL HM. intros H. unfold limit_concentration. destruct (MULTI o) eqn:EM; [|exact H]. induction H as [|q u Hq H IH]; cbn [map]; constructor; [|exact IH].
  intros k Hk. pose proof (across_mV o e He k Hk HV EM) as N. unfold set1. rewrite (proj2 (Nat.eqb_neq k (mV o)) N). apply Hq, Hk.
Qed.
Lemma each_plane f : (forall i q q', f i q = Ok q' -> plane q -> plane q') -> forall u i u', each_cell f i u = Ok u' -> Forall plane u -> Forall plane u'.
Proof using.
  intros H. induction u as [|q u IH]; intros i u' E F; cbn [each_cell] in E; [injection E as <-; constructor|].
  apply bind_ok in E. destruct E as (q' & E1 & E). apply bind_ok in E. destruct E as (w & E2 & E). injection E as <-. inversion F; subst. constructor; [apply (H i q), H2; exact E1|apply (IH (S i)); assumption].
Qed.
Theorem post_plane tol c u u' : post o svd false tol m c u = Ok u' -> Forall plane u -> Forall plane u'.
Proof using HL HM HV He.
  intros E F. unfold post in E. apply bind_ok in E. destruct E as (u2 & EC & E). unfold corrected in EC. apply bind_ok in EC. destruct EC as (v & E1 & E2). rewrite Bool.andb_false_r in E2. injection E2 as <-.
  pose proof (each_plane _ renorm_plane _ _ _ E1 (limit_plane u F)) as F1. apply bind_ok in E. destruct E as ([|] & _ & E).
  - exact (each_plane _ reset_plane _ _ _ E F1).
  - injection E as <-. exact F1.
Qed.
End Code.

(** ** the relaxation of the code *)
(** a decomposition that gives a distortion coupling nothing with direction e directions that do not couple it either: what is assembled from new stretches is unchanged by reversing e. Nothing
    is asked when all stretches are equal. *)
Definition level_svd (e : nat) (svd : mat3 -> mat3 * vec3 * mat3) : Prop := forall A, meq A (reversed e A) ->
  let '(U, s, W) := svd A in ~ (s 0%nat = s 1%nat /\ s 1%nat = s 2%nat) -> (forall i, (i < 3)%nat -> s i <> 0) -> forall f, meq (assemble U f W) (reversed e (assemble U f W)).
(** of a correct decomposition this is an assumption only where exactly two stretches are equal *)
Theorem correct_svd_level e svd : (e < 3)%nat -> (forall A, svd_of A (svd A)) ->
  (forall A, let s := singular_values (svd A) in (s 2%nat = s 1%nat <-> s 1%nat = s 0%nat) \/ (meq A (reversed e A) -> let '(U, _, W) := svd A in forall f, meq (assemble U f W) (reversed e (assemble U f W)))) ->
  level_svd e svd.
Proof.
  intros He HS HD A E. pose proof (HS A) as S. specialize (HD A). destruct (svd A) as [[U s] W] eqn:ES. cbn [singular_values] in HD. intros NE NZ f.
  pose proof (svd_turned A U s W (reversal e) (reversal e) (reversal_orthogonal e He) (reversal_orthogonal e He) S) as ST.
  destruct HD as [HD|HD]; [|apply HD, E].
  assert (O : s 2%nat <= s 1%nat <= s 0%nat) by apply S. assert (D : s 2%nat < s 1%nat < s 0%nat).
  { destruct (Req_dec (s 2%nat) (s 1%nat)) as [X|X]; [exfalso; apply NE; rewrite X; split; [symmetry; apply HD, X|reflexivity]|]. assert (Y : s 1%nat <> s 0%nat) by (intros Y; apply X, HD, Y). lra. }
  unfold reversed. rewrite <- assemble_turned. symmetry. apply (assembled_same _ _ _ _ _ _ _ _ (meq_sym _ _ E) ST S D). exact NZ.
Qed.
Lemma plane_turned o e q : (e < 3)%nat -> plane o e q -> FrameSpec.turned o (reversal e) (reversal e) q q.
Proof.
  intros He H. split; try reflexivity.
  - intros i Hi. pose proof (H _ (across_v o e)) as V0. unfold get_rhov, mvec, sum3, reversal. destruct e as [|[|[|]]]; try lia; idx3 i; cbn [Nat.eqb Nat.add] in *; rewrite ?V0; ring.
  - intros i j Hi Hj. pose proof (A_plane o e He q i j H Hi Hj) as Z. unfold mmul, mtr, sum3, reversal. destruct e as [|[|[|]]]; try lia; idx3 i; idx3 j; cbn [Nat.eqb xorb] in *; try (rewrite (Z eq_refl)); ring.
  - intros T i Hi. pose proof (H _ (across_J o e T)) as V0. unfold get_rhoJ, mvec, sum3, reversal. destruct e as [|[|[|]]]; try lia; idx3 i; cbn [Nat.eqb Nat.add] in *; rewrite ?V0; ring.
Qed.
Lemma turned_plane o e q : (e < 3)%nat -> FrameSpec.turned o (reversal e) (reversal e) q q -> plane o e q.
Proof.
  intros He [_ _ T2 T3 T4 _] k Hk. apply (across_cases o e He) in Hk. destruct Hk as [->|[(j & Hj & Hne & [->| ->])|[T ->]]].
  - specialize (T2 e He). unfold get_rhov, mvec, sum3, reversal in T2. destruct e as [|[|[|]]]; try lia; cbn [Nat.eqb Nat.add] in *; lra.
  - specialize (T3 e j He Hj). unfold get_A, mmul, mtr, sum3, reversal in T3. destruct e as [|[|[|]]]; try lia; idx3 j; try lia; cbn [Nat.eqb Nat.add Nat.mul] in *; lra.
  - specialize (T3 j e Hj He). unfold get_A, mmul, mtr, sum3, reversal in T3. destruct e as [|[|[|]]]; try lia; idx3 j; try lia; cbn [Nat.eqb Nat.add Nat.mul] in *; lra.
  - specialize (T4 T e He). unfold get_rhoJ, mvec, sum3, reversal in T4. destruct e as [|[|[|]]]; try lia; cbn [Nat.eqb Nat.add] in *; lra.
Qed.
Lemma relax_A_level e P svd A dt B : level_svd e svd -> meq A (reversed e A) -> relax_A P svd A dt = Some B -> meq B (reversed e B).
Proof.
  intros HS E EB. specialize (HS A E). destruct (svd A) as [[U s] W] eqn:ES. pose proof (relax_by_stretches P svd A dt U s W ES) as Q.
  destruct (Req_dec (s 0%nat) (s 1%nat)) as [E1|E1]; [destruct (Req_dec (s 1%nat) (s 2%nat)) as [E2|E2]|].
  1: rewrite (isotropic_kept P s dt E1 E2) in Q; rewrite Q in EB; injection EB as <-; exact E.
  all: specialize (HS ltac:(tauto)); destruct (new_stretches P s dt) as [[f|]|]; [|rewrite Q in EB; injection EB as <-; exact E|rewrite Q in EB; discriminate];
    destruct Q as (NZ & B' & EB' & EQ); rewrite EB' in EB; injection EB as <-; unfold reversed in *; rewrite EQ; apply (HS NZ f).
Qed.
(** The relaxation of the code keeps a plane motion plane. *)
Theorem relaxation_plane o P K sm z svd h e : (e < 3)%nat -> VISCOUS o = true -> (REACTION P < 0)%Z -> body P e = 0 -> level_svd e svd -> keeps o e (code_relaxation o P K sm z svd h).
Proof.
  intros He HV HR HB HS q Hq. unfold at_numbers, code_relaxation, ode_cell.
  pose proof (reversal_orthogonal e He) as RO.
  assert (R : turned_result o (reversal e) (reversal e) (ode_stepper_analytic o P svd q h) (ode_stepper_analytic o P svd q h)).
  { unfold ode_stepper_analytic. cbv zeta. rewrite HV.
    assert (B0 : veq (mvec (reversal e) (body P)) (body P)) by (intros i Hi; unfold mvec, sum3, reversal; destruct e as [|[|[|]]]; try lia; idx3 i; cbn [Nat.eqb]; rewrite ?HB; ring).
    pose proof (plane_turned o e q He Hq) as HT. pose proof (body_turned o P (reversal e) (reversal e) q q h B0 HT) as HT1.
    assert (X : turned_result o (reversal e) (reversal e) (relax_distortion P svd (body_forces P q h) h) (relax_distortion P svd (body_forces P q h) h)).
    { unfold relax_distortion. rewrite !get_A_body. pose proof (fun B => relax_A_level e P svd (get_A q) h B HS (tu_distortion _ _ _ _ _ HT)) as Q.
      destruct (relax_A P svd (get_A q) h) as [B|]; cbn [obind turned_result]; [|exact I]. apply put_turned; [assumption|]. apply Q. reflexivity. }
    destruct (relax_distortion P svd (body_forces P q h) h) as [p|]; cbn [obind]; [|exact I].
    destruct (THERMAL o) eqn:ET; [apply thermal_turned; assumption|exact X]. }
  destruct (ode_stepper_analytic o P svd q h) as [p|]; [|intros k _; reflexivity].
  unfold ode_stepper_numerical. destruct (Z.ltb_spec (-1) (REACTION P)); [lia|]. cbn [bind option_map val]. apply turned_plane; assumption.
Qed.
