(** C20: a uniform field stays uniform through a whole ADER step: ghost cells, reconstruction, predictor and finite volume
    update. *)
From Coq Require Import Reals Lia Lra ZArith FunctionalExtensionality.
From Verif Require Import Base Options Sum EqModel EqSpec FvModel FvBody FvSpec FvProof FvProps PolyModel WenoModel WenoProof3 WenoProps
  DgModel DgSpec DgProof2 DgProof3 DgProps StepperModel StepperProof GridModel GridSpec GridProps AderModel AderProof AderProof2 AderProof3 AderProps AderProof4.
Import List ListNotations.
Open Scope nat_scope.

Section C20.
Variable o : options.
Variable ph : phys.
Variables (nodes : list R) (bs : list poly) (w : nat -> R).
Variables (FLUX : nat) (dt : R) (dX : nat -> R).
Variables (SIG : nat -> nat -> R) (LAMS LAMC EPS : R) (inv : stencil -> (nat -> R) -> nat -> R).
Variable prim : option ((num -> num) * (num -> num)).
Variables (DG_IT : nat) (DG_TOL : R) (solve : nat -> nodal -> nodal).
Variable nonlin_solve : (option nodal -> res (option nodal)) -> option nodal -> res (option nodal).
Variables (valid : nodal -> bool) (nan_far : option nodal -> option nodal -> bool) (STIFF STIFF_IG : bool).
Variable wallf : nat -> nat -> num -> num.
Variable Q : vec.

(** one step with the tables of the basis [bs] on [nodes] with quadrature weights [w] *)
Notation step := (ader_step o ph (fun k => nth k nodes 0%R) w (end_values bs) (Dv bs nodes) FLUX dt dX SIG LAMS LAMC EPS inv prim
  (Dmat bs (fun k => nth k nodes 0%R) w) (Mof nodes bs w) DG_IT DG_TOL solve nonlin_solve valid nan_far STIFF STIFF_IG).

(** transmissive and periodic boundaries, and the walls that leave the state Q alone *)
Definition keeps_state (ndim : nat) (bt : nat -> nat) : Prop :=
  forall k, k < 2 * ndim -> bt k <= 5 /\ (1 < bt k -> wallf (bt k) (k / 2) (Some Q) = Some Q).

Lemma ghost_const ty d n x y z : (1 < ty -> wallf ty d (Some Q) = Some Q) -> ghost num wallf ty d n (fun _ => Some Q) x y z = Some Q.
Proof using. intros H. destruct ty as [|[|ty]]; cbn [ghost]; [reflexivity|reflexivity|apply H; lia]. Qed.
Lemma extend1_const t0 t1 d n x f : (forall y, f y = Some Q) -> (1 < t0 -> wallf t0 d (Some Q) = Some Q) -> (1 < t1 -> wallf t1 d (Some Q) = Some Q) ->
  extend1 num wallf t0 t1 d n f x = Some Q.
Proof using.
  intros F H0 H1. replace f with (fun _ : Z => Some Q : num) by (apply functional_extensionality; intros; now rewrite F).
  unfold extend1. destruct (x <? 0)%Z; [apply ghost_const, H0|]. destruct (x <? n)%Z; [reflexivity|apply ghost_const, H1].
Qed.

Hypothesis HR : runs o FLUX dX.
Hypothesis HN : length nodes = N o.
Hypothesis HB : dg_basis nodes bs w.
Hypothesis HW : weno_setup nodes bs inv SIG LAMS LAMC EPS.
Hypothesis HP : prim_ok prim Q.
Hypothesis HQ : forall k, source ph Q k = 0%R.

Lemma gather_reads wh m : forall n i, reads m wh Q -> i + n <= m -> gather (rd wh) n i = Ok (repeat (Some Q) n).
Proof using HN.
  induction n as [|n IH]; intros i H L; cbn [gather repeat]; [reflexivity|]. rewrite (H i) by lia. cbn [bind]. rewrite IH by (try exact H; lia). reflexivity.
Qed.
Notation PhiQ := (Phi o ph w (end_values bs) (Dv bs nodes) (Dmat bs (fun k => nth k nodes 0%R) w) (Mof nodes bs w) dt dX DG_IT DG_TOL solve nonlin_solve valid nan_far STIFF STIFF_IG).
Notation setup := (predictor_setup o nodes bs w DG_IT DG_TOL solve nonlin_solve valid STIFF STIFF_IG Q).

(** the predictor of a uniform reconstruction is uniform in space and time *)
Lemma predictor_uniform ndim n wh mask : ndim = 1 \/ ndim = 2 -> setup ndim -> reads (n * N o ^ ndim) wh Q -> blen mask = n -> (forall i, i < n -> exists b, rd mask i = Ok b) ->
  exists qh q, predictor (N o) (option nodal) PhiQ ndim (N o ^ ndim) (balloc (n * N o)) wh mask = Ok qh /\ blen qh = n * N o /\
    uniform q Q (N o ^ (ndim + 1)) /\
    forall i t, i < n -> t < N o -> rd mask i = Ok true -> bdat qh (i * N o + t) = Some (Some (fun s => q (t * N o ^ ndim + s))).
Proof using HR HN HB HQ.
  intros Hn HS Hr Lm Hm. pose proof HR as [HV [HF _]]. pose proof (N_pos o nodes bs w HN HB) as N1.
  destruct (pred_uniform o ph nodes bs w HV HN HB dt dX DG_IT DG_TOL solve nonlin_solve valid nan_far STIFF STIFF_IG Q HQ ndim Hn HS) as [q [E U]].
  destruct (predictor_ok (N o) N1 (option nodal) PhiQ ndim (N o ^ ndim) (balloc (n * N o)) wh mask
     (fun i => match rd mask i with Ok true => Some (time_blocks o ndim (Some q)) | _ => None end)) as [qh [Eq [Lq Vq]]].
  - cbn [balloc blen]. lia.
  - intros i Hi. unfold pcell. destruct (Hm i ltac:(lia)) as [m Em]. rewrite Em. cbn [bind]. destruct m; [|reflexivity].
    rewrite (gather_reads wh (n * N o ^ ndim)); [|exact Hr|rewrite Lm in Hi; nia]. cbn [bind]. unfold Phi. rewrite E. reflexivity.
  - exists qh, q. split; [exact Eq|]. split; [exact Lq|]. split; [exact U|]. intros i t Hi Ht Mi. rewrite Vq by lia. rewrite Mi. reflexivity.
Qed.

Definition flat (n : nat) : buf vec := mkbuf n (fun a => if a <? n then Some Q else None).
Lemma flat_ok n a : a < n -> bdat (flat n) a = Some Q.
Proof using. intros H. cbn [flat bdat]. now rewrite (proj2 (Nat.ltb_lt _ _) H). Qed.
Lemma flat_u n u : holds n u (fun _ => Q) -> Ru vec num (fun x y => y = Some x) (flat n) u.
Proof using.
  intros [L H]. split; [symmetry; exact L|]. intros a x. cbn [flat bdat]. destruct (Nat.ltb_spec a n) as [La|_]; [|discriminate]. intros [= <-]. rewrite H by exact La. eauto.
Qed.

Theorem ader_uniform_1d nx bt u ub0 mask :
  N o <= nx -> keeps_state 1 bt -> setup 1 -> holds nx u (fun _ => Q) -> full_mask [nx] mask -> blen ub0 = extended_dimensions [nx] (N o) ->
  exists ub u', boundaries num (N o) wallf u ub0 [nx] bt = Ok ub /\ step u ub mask [nx] = Ok u' /\ holds nx u' (fun _ => Q).
Proof using HR HN HB HW HP HQ.
  intros Nn HK HS Hu Hfull Lb. pose proof HR as [HV [HF [D0 D1]]]. pose proof (N_pos o nodes bs w HN HB) as N1. destruct Hu as [Lu Du].
  pose proof (full_mask_1 (nx := nx) ltac:(lia) Hfull) as Hmask. pose proof Hmask as [Lm Hm].
  destruct (boundaries_1d_correct num (N o) wallf u ub0 nx bt (fun _ => Some Q) Nn ltac:(lia) ltac:(intros k Hk; apply HK; lia) Lu Du Lb) as [ub [Eb [Lub Wub]]].
  exists ub. assert (FU : full_of (nx + 2 * length nodes) ub Q).
  { split; [rewrite HN; exact Lub|]. rewrite HN. intros a Ha. rewrite Wub by exact Ha. f_equal. apply extend1_const; [reflexivity|apply (HK 0); lia|apply (HK 1); lia]. }
  destruct (weno_prim_uniform_1d nodes bs inv SIG LAMS LAMC EPS HW prim (NO_CORNERS o) nx (balloc ((nx + 2) * length nodes)) ub Q HP eq_refl FU) as [wh [Ewh Rw]].
  rewrite HN in Ewh, Rw. (* predictor *)
  destruct (predictor_uniform 1 (nx + 2) wh mask (or_introl eq_refl) HS) as [qh [q [Eqh [Lq [Uq Vq]]]]]; [rewrite Nat.pow_1_r; exact Rw|exact Lm|intros i Hi; exists true; apply rd_ok; [lia|apply Hm, Hi]|].
  assert (MT : forall i, i < nx + 2 -> rd mask i = Ok true) by (intros i Hi; apply rd_ok; [lia|apply Hm, Hi]).
  destruct (tables o nodes bs w HN HB) as [_ [TD [_ TE]]].
  assert (H1 : holds1 o true nx (flat nx) (strip qh) mask (fun _ => Q) (fun _ t s => q (t mod N o * N o ^ 1 + s)) (fun _ => true)).
  { split; [reflexivity|]. split; [intros c Hc; apply flat_ok, Hc|]. split.
    - intros i t Hi Ht. cbn [nt_of] in *. apply rd_ok; cbn [strip blen bdat]; [rewrite Lq; apply pack_bound; assumption|]. rewrite Vq by (try apply MT; assumption). cbn [unwrap]. now rewrite Nat.mod_small.
    - intros i Hi. apply rd_ok; [lia|apply Hm; lia]. }
  destruct (fv_launcher_1d o ph (fun k => nth k nodes 0%R) w (end_values bs) (Dv bs nodes) true true FLUX dt dX nx (flat nx) (strip qh) mask _ _ _ HR H1) as [u2 [_ [E2 [L2 _]]]].
  destruct (fv_uniform_1d o ph (fun k => nth k nodes 0%R) w (end_values bs) (Dv bs nodes) true true FLUX dt dX nx (flat nx) (strip qh) mask (fun _ => Q)
     (fun _ t s => q (t mod N o * N o ^ 1 + s)) (fun _ => true) (fun _ => Q) HR (conj TE TD) H1) as [u3 [x2 [E3 [V2 X2]]]].
  { intros _ t s Hs k. apply Uq. rewrite Nat.pow_1_r. replace (N o ^ (1 + 1)) with (N o * N o) by (cbn; lia). apply pack_bound; [apply Nat.mod_upper_bound; lia|exact Hs]. }
  { intros t k. unfold src. apply HQ. }
  rewrite E2 in E3. injection E3 as <-.
  destruct (fv_is_ader o ph (fun k => nth k nodes 0%R) w (end_values bs) (Dv bs nodes) FLUX dt dX HF SIG LAMS LAMC EPS inv prim PhiQ
     (flat nx) ub mask [nx] u2 wh qh (fun a s => q (a mod N o * N o ^ 1 + s)) u (or_introl eq_refl)) as [u' [Ea Ru']].
  - cbn [length]. rewrite Nat.pow_1_r. replace (extended_dimensions [nx] 1) with (nx + 2) by (cbn; lia). exact Ewh.
  - cbn [length]. replace (extended_dimensions [nx] 1) with (nx + 2) by (cbn; lia). exact Eqh.
  - intros i t Ht Hi Mi. assert (Ii : i < nx + 2) by (rewrite Lq in Hi; nia). rewrite (Vq i t Ii Ht Mi). do 2 f_equal. apply functional_extensionality. intros s. rewrite (Nat.add_comm (i * N o)), Nat.mod_add, Nat.mod_small by lia. reflexivity.
  - exact E2.
  - apply flat_u. split; assumption.
  - exists u'. split; [exact Eb|]. split; [exact Ea|]. destruct Ru' as [RL RV]. split; [congruence|]. intros c Hc. destruct (RV c (x2 c) (V2 c Hc)) as [y [Ey ->]].
    rewrite Ey. do 2 f_equal. apply functional_extensionality. intros k. apply (X2 c Hc eq_refl).
Qed.

(** 2-D; with NO_CORNERS the grid must be wide enough for the edge columns to have a stencil *)
Theorem ader_uniform_2d nx ny bt u ub0 mask :
  N o <= nx -> N o <= ny -> (NO_CORNERS o = true -> enough (N o) (nx + 2) (N o)) -> keeps_state 2 bt -> setup 2 ->
  holds (nx * ny) u (fun _ => Q) -> full_mask [nx; ny] mask -> blen ub0 = extended_dimensions [nx; ny] (N o) ->
  exists ub u', boundaries num (N o) wallf u ub0 [nx; ny] bt = Ok ub /\ step u ub mask [nx; ny] = Ok u' /\ holds (nx * ny) u' (fun _ => Q).
Proof using HR HN HB HW HP HQ.
  intros Nn Ny HE HK HS Hu Hfull Lb. pose proof HR as [HV [HF [D0 D1]]]. pose proof (N_pos o nodes bs w HN HB) as N1. destruct Hu as [Lu Du].
  pose proof (full_mask_2 (nx := nx) (ny := ny) ltac:(lia) ltac:(lia) Hfull) as FM. pose proof FM as [Lm Hm].
  destruct (boundaries_2d_correct num (N o) wallf u ub0 nx ny bt (fun _ _ => Some Q) Nn ltac:(lia) Ny ltac:(lia) ltac:(intros k Hk; apply HK; lia) Lu) as [ub [Eb [Lub Wub]]];
    [intros i j Hi Hj; apply Du, pack_bound; assumption|exact Lb|].
  exists ub. assert (FU : full_of ((nx + 2 * length nodes) * (ny + 2 * length nodes)) ub Q).
  { rewrite HN. split; [exact Lub|]. intros a Ha. rewrite (Nat.div_mod_eq a (ny + 2 * N o)), (Nat.mul_comm (ny + 2 * N o)). rewrite Wub; [|apply Nat.div_lt_upper_bound; lia|apply Nat.mod_upper_bound; lia].
    f_equal. unfold extend2. apply extend1_const; [|apply (HK 2); lia|apply (HK 3); lia]. intros y. apply extend1_const; [reflexivity|apply (HK 0); lia|apply (HK 1); lia]. }
  destruct (weno_prim_uniform_2d nodes bs inv SIG LAMS LAMC EPS HW prim (NO_CORNERS o) nx ny (balloc ((nx + 2) * (ny + 2) * length nodes * length nodes)) ub Q HP ltac:(rewrite HN; exact HE) eq_refl FU) as [wh [Ewh Rw]].
  rewrite HN in Ewh, Rw. rewrite <- Nat.mul_assoc in Ewh, Rw. replace (N o * N o) with (N o ^ 2) in Ewh, Rw by (cbn; lia).
  destruct (predictor_uniform 2 ((nx + 2) * (ny + 2)) wh mask (or_intror eq_refl) HS Rw Lm (full2_init FM)) as [qh [q [Eqh [Lq [Uq Vq]]]]].
  assert (DX : extended_dimensions [nx; ny] 1 = (nx + 2) * (ny + 2)) by (unfold extended_dimensions; cbn; lia).
  destruct (tables o nodes bs w HN HB) as [_ [TD [_ TE]]].
  assert (H1 : holds2 o true nx ny (flat (nx * ny)) (strip qh) mask (fun _ _ => Q) (fun i j t => if off_corner nx ny i j then fun s => q (t mod N o * N o ^ 2 + s) else match bdat qh ((i * (ny + 2) + j) * N o + t) with Some b => unwrap b | None => zblk end) (off_corner nx ny)).
  { split; [reflexivity|]. split; [intros a b Ha Hb; apply flat_ok, pack_bound; assumption|]. split.
    - intros i j t Hi Hj Ht. cbn [nt_of] in *. assert (B : i * (ny + 2) + j < (nx + 2) * (ny + 2)) by (apply pack_bound; assumption).
      apply rd_ok; cbn [strip blen bdat]; [rewrite Lq; apply pack_bound; assumption|]. destruct (off_corner nx ny i j) eqn:OC; [|reflexivity].
      rewrite Vq by (try assumption; rewrite (full2_rd FM), OC by assumption; reflexivity). cbn [unwrap]. now rewrite Nat.mod_small.
    - intros i j Hi Hj. apply (full2_rd FM); assumption. }
  destruct (fv_launcher_2d o ph (fun k => nth k nodes 0%R) w (end_values bs) (Dv bs nodes) true true FLUX dt dX nx ny (flat (nx * ny)) (strip qh) mask _ _ _ HR H1) as [u2 [_ [E2 [L2 _]]]].
  destruct (fv_uniform_2d o ph (fun k => nth k nodes 0%R) w (end_values bs) (Dv bs nodes) true true FLUX dt dX nx ny (flat (nx * ny)) (strip qh) mask (fun _ _ => Q)
     _ _ (fun _ => Q) HR (conj TE TD) H1) as [u3 [x2 [E3 [V2 X2]]]].
  { intros i j t OC s Hs k. cbv beta. rewrite OC. apply Uq. replace (N o ^ (2 + 1)) with (N o * N o ^ 2) by (cbn; lia). replace (N o * N o) with (N o ^ 2) in Hs by (cbn; lia).
    apply pack_bound; [apply Nat.mod_upper_bound; lia|exact Hs]. }
  { intros t k. unfold src. apply HQ. }
  rewrite E2 in E3. injection E3 as <-.
  destruct (fv_is_ader o ph (fun k => nth k nodes 0%R) w (end_values bs) (Dv bs nodes) FLUX dt dX HF SIG LAMS LAMC EPS inv prim PhiQ
     (flat (nx * ny)) ub mask [nx; ny] u2 wh qh (fun a s => q (a mod N o * N o ^ 2 + s)) u (or_intror eq_refl)) as [u' [Ea Ru']].
  - cbn [length]. rewrite DX. exact Ewh.
  - cbn [length]. rewrite DX. exact Eqh.
  - intros i t Ht Hi Mi. assert (Ii : i < (nx + 2) * (ny + 2)) by (rewrite Lq in Hi; nia). rewrite (Vq i t Ii Ht Mi). do 2 f_equal. apply functional_extensionality. intros s. rewrite (Nat.add_comm (i * N o)), Nat.mod_add, Nat.mod_small by lia. reflexivity.
  - exact E2.
  - apply flat_u. split; assumption.
  - exists u'. split; [exact Eb|]. split; [exact Ea|]. destruct Ru' as [RL RV]. split; [congruence|]. intros c Hc. assert (Y0 : ny <> 0) by lia.
    assert (Ha : c / ny < nx) by (apply Nat.div_lt_upper_bound; lia). pose proof (Nat.mod_upper_bound c ny Y0) as Hb.
    destruct (RV c (x2 (c / ny) (c mod ny))) as [y [Ey ->]].
    + rewrite (Nat.div_mod_eq c ny) at 1. rewrite (Nat.mul_comm ny). apply V2; assumption.
    + rewrite Ey. do 2 f_equal. apply functional_extensionality. intros k. apply (X2 _ _ Ha Hb); [rewrite !off_y by lia; reflexivity|rewrite !off_x by lia; reflexivity].
Qed.
End C20.
Print Assumptions ader_uniform_1d.
Print Assumptions ader_uniform_2d.
