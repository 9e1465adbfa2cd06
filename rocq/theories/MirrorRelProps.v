(** C94, C95: the relaxation of the split solver prefers no end of the line. *)
From Coq Require Import Reals Lia Lra ZArith FunctionalExtensionality.
From Verif Require Import Base Options Mat3 EqModel PhysModel UtilsModel PhysSpec PhysProof PhysProof2 RelaxModel RelaxSpec FrameSpec FrameProof FrameProps Split3Props GridModel RefSpec MirrorSpec MirrorProof2 MirrorProof3 MirrorProof5 MirrorJac MirrorProps.
From Verif Require PhysInst.
Import List ListNotations.
Open Scope R_scope.

(** the reflection in the plane normal to the first axis *)
Definition reflection : mat3 := fun i j => if Nat.eqb i j then (if Nat.eqb i 0 then -1 else 1) else 0.
Definition reflected (A : mat3) : mat3 := mmul (mmul reflection A) (mtr reflection).
Lemma reflection_orthogonal : orthogonal reflection.
Proof. split; intros i j Hi Hj; idx3 i; idx3 j; unfold reflection; m3; cbn; ring. Qed.
(** The decomposition of a reflected matrix has the same stretches, and its directions are the reflected ones: what is assembled from new stretches is reflected. When all stretches are equal the
    relaxation does nothing and nothing is asked of the directions. *)
Definition handless_svd (svd : mat3 -> mat3 * vec3 * mat3) : Prop := forall A A', meq A' (reflected A) ->
  let '(U, s, W) := svd A in let '(U', s', W') := svd A' in
  (forall i, (i < 3)%nat -> s' i = s i) /\
  (~ (s 0%nat = s 1%nat /\ s 1%nat = s 2%nat) -> (forall i, (i < 3)%nat -> s i <> 0) -> forall f, meq (assemble U' f W') (reflected (assemble U f W))).
(** of a correct decomposition this is an assumption only where exactly two stretches are equal *)
Theorem correct_svd_handless svd : (forall A, svd_of A (svd A)) ->
  (forall A, let s := singular_values (svd A) in (s 2%nat = s 1%nat <-> s 1%nat = s 0%nat) \/
     forall A', meq A' (reflected A) -> let '(U, _, W) := svd A in let '(U', _, W') := svd A' in forall f, meq (assemble U' f W') (reflected (assemble U f W))) ->
  handless_svd svd.
Proof.
  intros HS HD A A' E. pose proof (HS A) as S. pose proof (HS A') as S'. specialize (HD A). destruct (svd A) as [[U s] W] eqn:ES. destruct (svd A') as [[U' s'] W'] eqn:ES'. cbn [singular_values] in HD.
  pose proof (svd_turned A U s W reflection reflection reflection_orthogonal reflection_orthogonal S) as ST.
  assert (V : forall i, (i < 3)%nat -> s' i = s i) by (apply (values_unique _ _ _ _ _ _ _ _ (meq_sym _ _ E) ST S')). split; [exact V|]. intros NE NZ f.
  destruct HD as [HD|HD].
  - assert (O : s 2%nat <= s 1%nat <= s 0%nat) by apply S. assert (D : s 2%nat < s 1%nat < s 0%nat).
    { destruct (Req_dec (s 2%nat) (s 1%nat)) as [X|X]; [exfalso; apply NE; rewrite X; split; [symmetry; apply HD, X|reflexivity]|]. assert (Y : s 1%nat <> s 0%nat) by (intros Y; apply X, HD, Y). lra. }
    unfold reflected. rewrite <- assemble_turned. symmetry. apply (assembled_same _ _ _ _ _ _ _ _ (meq_sym _ _ E) ST S' D). exact NZ.
  - specialize (HD A' E). rewrite ES' in HD. apply HD.
Qed.

Lemma mirror_turned o q : VISCOUS o = true -> turned o reflection reflection q (mirror o q).
Proof.
  intros HV. split.
  - unfold mirror, sign. ring.
  - unfold mirror, sign. ring.
  - intros i Hi. idx3 i; unfold get_rhov, mvec, sum3, mirror, sign, reflection; cbn [Nat.eqb Nat.add]; ring.
  - intros i j Hi Hj. idx3 i; idx3 j; unfold get_A, mmul, mtr, sum3, mirror, sign, reflection; cbn [Nat.eqb Nat.add Nat.mul]; ring.
  - intros HT i Hi. idx3 i; unfold get_rhoJ, mvec, sum3, mirror, sign, reflection; cbn [Nat.eqb Nat.add]; rewrite ?HT; ring.
  - intros k Hk. unfold mirror, sign. destruct (THERMAL o); do 14 (destruct k as [|k]; [lia|]).
    + do 3 (destruct k as [|k]; [lia|]). ring.
    + destruct k; ring.
Qed.
Lemma turned_mirror o q q' : VISCOUS o = true -> turned o reflection reflection q q' -> q' = mirror o q.
Proof.
  intros HV [T0 T1 T2 T3 T4 T5]. destruct (mirror_turned o q HV) as [M0 M1 M2 M3 M4 M5]. apply functional_extensionality. intros k.
  destruct (Nat.le_gt_cases (14 + (if THERMAL o then 3 else 0)) k) as [L|L]; [rewrite T5, M5 by exact L; reflexivity|].
  destruct k as [|[|k]]; [congruence|congruence|]. destruct (Nat.lt_ge_cases k 3) as [K|K].
  { specialize (T2 k K). specialize (M2 k K). rewrite <- M2 in T2. unfold get_rhov in T2. exact T2. }
  destruct (Nat.lt_ge_cases k 12) as [K2|K2].
  { assert (A : meq (get_A q') (get_A (mirror o q))) by (intros i j Hi Hj; rewrite T3, M3 by assumption; reflexivity).
    pose proof (A ((k - 3) / 3)%nat ((k - 3) mod 3)%nat) as B. unfold get_A in B.
    assert (D := Nat.div_mod_eq (k - 3) 3). assert (D2 := Nat.mod_upper_bound (k - 3) 3 ltac:(lia)).
    specialize (B ltac:(lia) ltac:(lia)). replace (S (S k)) with (5 + 3 * ((k - 3) / 3) + (k - 3) mod 3)%nat by lia. exact B. }
  destruct (THERMAL o); [|lia]. specialize (T4 eq_refl (k - 12)%nat ltac:(lia)). specialize (M4 eq_refl (k - 12)%nat ltac:(lia)). rewrite <- M4 in T4. unfold get_rhoJ in T4.
  replace (S (S k)) with (14 + (k - 12))%nat by lia. exact T4.
Qed.
Lemma relax_A_reflected P svd A A' dt : handless_svd svd -> meq A' (reflected A) ->
  match relax_A P svd A dt, relax_A P svd A' dt with Some B, Some B' => meq B' (reflected B) | None, None => True | _, _ => False end.
Proof.
  intros HS E. specialize (HS A A' E). destruct (svd A) as [[U s] W] eqn:ES. destruct (svd A') as [[U' s'] W'] eqn:ES'. destruct HS as [V HF].
  pose proof (relax_by_stretches P svd A dt U s W ES) as Q. pose proof (relax_by_stretches P svd A' dt U' s' W' ES') as Q'. rewrite (new_stretches_ext P s s' dt V) in Q'.
  destruct (Req_dec (s 0%nat) (s 1%nat)) as [E1|E1]; [destruct (Req_dec (s 1%nat) (s 2%nat)) as [E2|E2]|].
  1: rewrite (isotropic_kept P s dt E1 E2) in Q, Q'; rewrite Q, Q'; exact E.
  all: specialize (HF ltac:(tauto)); destruct (new_stretches P s dt) as [[f|]|]; [|rewrite Q, Q'; exact E|rewrite Q, Q'; exact I];
    destruct Q as (NZ & B & -> & EB); destruct Q' as (_ & B' & -> & EB'); rewrite EB', (HF NZ f); unfold reflected; rewrite EB; reflexivity.
Qed.
(** The relaxation of the code, at the mirror image of a state, is the mirror image of what it does to the state. *)
Theorem relaxation_mirrors o P K sm z svd h q : VISCOUS o = true -> (REACTION P < 0)%Z -> body P 0%nat = 0 -> handless_svd svd ->
  code_relaxation o P K sm z svd h (Some (mirror o q)) = option_map (mirror o) (code_relaxation o P K sm z svd h (Some q)).
Proof.
  intros HV HR HB HS. unfold code_relaxation, ode_cell.
  assert (R : turned_result o reflection reflection (ode_stepper_analytic o P svd q h) (ode_stepper_analytic o P svd (mirror o q) h)).
  { unfold ode_stepper_analytic. cbv zeta. rewrite HV.
    assert (B0 : veq (mvec reflection (body P)) (body P)) by (intros i Hi; idx3 i; unfold mvec, sum3, reflection; cbn [Nat.eqb]; rewrite ?HB; ring).
    pose proof (mirror_turned o q HV) as HT. pose proof (body_turned o P reflection reflection q (mirror o q) h B0 HT) as HT1.
    assert (X : turned_result o reflection reflection (relax_distortion P svd (body_forces P q h) h) (relax_distortion P svd (body_forces P (mirror o q) h) h)).
    { unfold relax_distortion. rewrite !get_A_body. pose proof (relax_A_reflected P svd (get_A q) (get_A (mirror o q)) h HS (tu_distortion _ _ _ _ _ HT)) as Q.
      destruct (relax_A P svd (get_A q) h), (relax_A P svd (get_A (mirror o q)) h); try contradiction; cbn [obind turned_result]; [|exact I]. apply put_turned; assumption. }
    destruct (relax_distortion P svd (body_forces P q h) h) as [p|], (relax_distortion P svd (body_forces P (mirror o q) h) h) as [p'|]; try contradiction; cbn [obind]; [|exact I].
    destruct (THERMAL o) eqn:ET; [apply thermal_turned; try assumption; apply reflection_orthogonal|exact X]. }
  destruct (ode_stepper_analytic o P svd q h) as [p|], (ode_stepper_analytic o P svd (mirror o q) h) as [p'|]; try contradiction; [|reflexivity].
  unfold ode_stepper_numerical. destruct (Z.ltb_spec (-1) (REACTION P)); [lia|]. cbn [bind option_map]. f_equal. apply turned_mirror; assumption.
Qed.
Theorem relaxation_handless o P K sm z svd h : VISCOUS o = true -> (REACTION P < 0)%Z -> body P 0%nat = 0 -> handless_svd svd -> keeps o (code_relaxation o P K sm z svd h).
Proof.
  intros HV HR HB HS q. unfold at_numbers. rewrite relaxation_mirrors by assumption. destruct (code_relaxation o P K sm z svd h (Some q)); [reflexivity|].
  cbn [option_map WenoModel.val]. apply functional_extensionality. intros k. unfold mirror. ring.
Qed.
(** The material of the code has the symmetry with each of the three interface fluxes; with those of Roe and of Osher the code's Jacobian has it, and the |M| it gets from Eigen must. *)
Theorem code_mirrors o P K sm specrad eigabs FLUX : MULTI o = false -> VISCOUS o = true -> PMULTI P = false -> (REACTION P < 0)%Z -> body P 0%nat = 0 -> similar_invariant specrad ->
  (FLUX <> 0%nat -> forall (M M' : EqModel.mat) (x : vec), (forall a b, M' a b = - (sign o a * sign o b * M a b)) -> eigabs M' (fun k => - (sign o k * x k)) = fun k => - (sign o k * eigabs M x k)) ->
  mirrors o (PhysInst.gpr o P sm specrad eigabs (source_or_zero o P K sm)) FLUX.
Proof.
  intros HM HV HP HR HB HS HE. assert (HR' : Z.ltb (-1) (REACTION P) = false) by (apply Z.ltb_ge; lia). destruct (gpr_mirrors o P K sm HM HV HP HR' specrad HS eigabs HB) as [M1 M2 M3 M4 _ _].
  split; try assumption. intros _ q a b. cbn [EqModel.jacobian PhysInst.gpr]. apply jacobian_mirror; assumption.
Qed.
(** An |M| that is right about diagonalisable matrices has the symmetry there. *)
Theorem right_eigabs_mirrors o (eigabs : EqModel.mat -> vec -> vec) n : (forall M Rt L l x, spectral n M Rt L l -> forall k, eigabs M x k = if Nat.ltb k n then absolute n Rt L l x k else 0) ->
  forall M M' x, (exists Rt L l, spectral n M Rt L l) -> (forall a b, M' a b = - (sign o a * sign o b * M a b)) -> eigabs M' (fun k => - (sign o k * x k)) = fun k => - (sign o k * eigabs M x k).
Proof. exact (right_abs_mirror o eigabs n). Qed.

Print Assumptions correct_svd_handless.
Print Assumptions relaxation_mirrors.
Print Assumptions relaxation_handless.
Print Assumptions code_mirrors.
Print Assumptions right_eigabs_mirrors.
