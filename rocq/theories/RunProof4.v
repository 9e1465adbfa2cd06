(** One material and no level set: the run ends. Uniform steady states. *)
From Coq Require Import Reals Lia Lra ZArith FunctionalExtensionality.
From Verif Require Import Base Options Mat3 PhysModel UtilsModel UtilsProof UtilsProps IterModel IterSpec IterProof IterProof2 IterProps RunProof2.
Import List ListNotations.
Open Scope R_scope.

Section One.
Variable o : options.
Variable svd : mat3 -> vec3 * mat3.
Variable speed : vec -> nat -> matpar -> option R.
Variable fill : list grid -> list (list bool) -> grid -> R -> res (grid * list grid * list (list bool)).
Variable advance : matpar -> grid -> list bool -> R -> res grid.
Variable nan : grid -> bool.
Variable ROT : bool.
Variables (dX : list R) (CFL tf tol : R) (m : matpar).
Notation turn := (turn o svd speed fill advance nan ROT dX CFL tf tol [m]).
Notation run := (run o svd speed fill advance nan ROT dX CFL tf tol [m]).
Hypothesis HL : LSET o = 0%nat.
Hypothesis HM : mp_void m = false.
Notation post := (post o svd ROT tol m).

(** NAN: whether a step may end with a NaN *)
Lemma run_ends (P : grid -> Prop) (NAN : Prop) n M : VISCOUS o = true -> 0 < CFL -> 0 < tf -> (forall g, nan g = false) -> 0 < M -> (forall q m r, rate speed dX q m = Some r -> r <= M) ->
  (forall u, P u -> List.length u = n) ->
  (forall u dt, P u -> (exists u1, advance m u (repeat true n) dt = Ok u1 /\ forall c u', post c u1 = Ok u' -> P u') \/ (NAN /\ advance m u (repeat true n) dt = Throw "NaN")) ->
  forall fuel s, inv tf s -> P (s_u s) -> (exists g0, s_grids s = [g0]) -> s_masks s = [repeat true n] -> s_t s = tf \/ tf - s_t s < INR fuel * (CFL / M / 5) ->
    (exists s', run fuel s = Ok (s', false)) \/ (NAN /\ run fuel s = Throw "NaN").
Proof using HL HM.
  intros HV HC HT HN M0 B HP HA. assert (D : 0 < CFL / M / 5) by (assert (0 < CFL / M) by (apply Rdiv_lt_0_compat; assumption); lra).
  induction fuel as [|fuel IH]; intros s I Pu [g0 EG] EK F; cbn [IterModel.run]; destruct (Rlt_dec (s_t s) tf) as [L|L].
  1: destruct F as [F|F]; cbn in F; lra.
  1,3: rewrite wr_ok by (rewrite (inv_len _ _ I); lia); cbn [bind]; left; eexists; reflexivity.
  pose proof (turn_single o svd speed fill advance nan ROT dX CFL tf tol m HL HM s g0 _ EG EK) as ET. pose proof (HP _ Pu) as Lu.
  assert (SH : shaped n [m] [s_u s] [repeat true n]) by (split; [reflexivity|]; split; [reflexivity|]; split; intros x [<-|[]]; [exact Lu|apply repeat_length]).
  destruct (timestep_respects_cfl speed n [m] [s_u s] [repeat true n] dX CFL (s_t s) tf (s_count s) SH ltac:(discriminate) HC ltac:(lra)) as (dt & ED & LE & _).
  pose proof (timestep_progress speed dX CFL tf [m] M _ _ _ _ _ HC M0 B ED) as PR.
  cbn [List.length] in ED. rewrite ED in ET. cbn [bind] in ET.
  destruct (HA (s_u s) dt Pu) as [(u1 & EA & P1)|[HNa EA]]; rewrite EA in ET; cbn [bind] in ET; [|rewrite ET; right; split; [exact HNa|reflexivity]].
  destruct (post_returns o svd ROT tol m HL (S (s_count s)) u1 HV) as (u' & EP & LP). pose proof (P1 _ _ EP) as Pu'. rewrite EP in ET. cbn [bind] in ET. rewrite HN in ET.
  assert (X : exists s', turn s = Ok (inl s') /\ s_u s' = u' /\ s_grids s' = [u1] /\ s_masks s' = [repeat true n] /\ s_t s' = s_t s + dt).
  { destruct (Rle_dec _ _) as [LS|LS] in ET.
    - rewrite wr_ok in ET by (rewrite (inv_len _ _ I); exact (snapshot_fits tf HT s dt I LE LS)). cbn [bind] in ET. eexists. split; [exact ET|]. repeat split.
    - cbn [bind] in ET. eexists. split; [exact ET|]. repeat split. }
  destruct X as (s' & ET' & EU & EG' & EK' & T'). pose proof (turn_inv o svd speed fill advance nan ROT dX CFL tf tol [m] HC s _ L I ET') as TI. rewrite ET'. cbn [bind].
  apply IH; [exact TI|rewrite EU; exact Pu'|exists u1; exact EG'|exact EK'|]. rewrite T'. rewrite S_INR in F. destruct PR as [PR|PR]; [left; exact PR|right]. destruct F as [F|F]; lra.
Qed.

(** ** a state that the corrections leave alone *)
Definition uncorrected (Q : vec) : Prop :=
  (MULTI o = true -> 0 <= Q (mV o) <= Q 0%nat) /\ (0 < Q 0%nat -> rho0 (prm (mp_par m)) * det3 (get_A Q) = Q 0%nat) /\ contorted_cell svd tol Q = false.
Lemma cbrt_1 : cbrt 1 = 1.
Proof using. unfold cbrt. destruct (Rlt_dec 0 1); [|lra]. unfold Rpower. rewrite ln_1, Rmult_0_r. apply exp_0. Qed.
Lemma uncorrected_post Q n c : VISCOUS o = true -> ROT = false -> uncorrected Q -> post c (repeat Q n) = Ok (repeat Q n).
Proof using HL HM.
  intros HV HRot (H1 & H2 & H3). unfold RunProof2.post, corrected.
  assert (E1 : limit_concentration o (repeat Q n) = repeat Q n).
  { unfold limit_concentration. destruct (MULTI o); [|reflexivity]. destruct (H1 eq_refl) as [A B].
    assert (E : forall v, v = Q (mV o) -> set1 Q (mV o) v = Q) by (intros v ->; apply functional_extensionality; intros k; unfold set1; destruct (Nat.eqb_spec k (mV o)) as [->|]; reflexivity).
    assert (M1 : cmin (Q (mV o)) (Q 0%nat) = Q (mV o)) by (unfold cmin; destruct (Rlt_dec _ _); lra).
    induction n as [|n IH]; cbn [repeat map]; [reflexivity|]. rewrite IH. f_equal. rewrite M1, (E _ eq_refl).
    apply E. unfold cmax. destruct (Rlt_dec _ _); lra. }
  rewrite E1.
  assert (E2 : forall n i, each_cell (renorm_cell o [m]) i (repeat Q n) = Ok (repeat Q n)).
  { induction n0 as [|n0 IH]; intros i; cbn [repeat each_cell]; [reflexivity|]. rewrite IH. unfold renorm_cell at 1. rewrite (the_material o m HL). cbn [bind]. rewrite HM.
    destruct (Rlt_dec 0 (Q 0%nat)) as [P|]; [|reflexivity]. unfold has_A. pose proof (V14 o HV). destruct (Nat.ltb_spec (Options.V o) 14); [lia|]. cbn [bind]. do 2 f_equal.
    apply functional_extensionality. intros k. unfold setseg. destruct (_ && _)%bool eqn:Ek; [|reflexivity]. apply Bool.andb_true_iff in Ek. destruct Ek as [Ek _]. apply Nat.leb_le in Ek.
    rewrite (H2 P). unfold Rdiv. rewrite Rinv_r by lra. rewrite cbrt_1, Rmult_1_r. f_equal. lia. }
  unfold renorm_distortion. rewrite E2. cbn [bind]. rewrite HRot, Bool.andb_false_r. cbn [bind].
  unfold contorted. pose proof (V14 o HV). destruct (Nat.ltb_spec (Options.V o) 14); [lia|]. cbn [bind].
  assert (E3 : existsb (contorted_cell svd tol) (repeat Q n) = false) by (clear E1; induction n; cbn; [reflexivity|]; rewrite H3; assumption). rewrite E3. reflexivity.
Qed.
End One.
