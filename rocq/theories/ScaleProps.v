(** C100: dynamic similarity. On cells lam times as large, until a time lam times as late, with viscosities, relaxation times and
    conductivities lam times as large and body forces and reaction rates lam times as small, a run computes the same fields. *)
From Coq Require Import Reals ZArith Lia Lra FunctionalExtensionality.
From Verif Require Import FvSpec WenoSpec WenoProof WenoProps DgSpec DgProof2 DgProps GridSpec GridProof GridProps UtilsProof UtilsProps IterSpec IterProof2 IterProps SafeProof RunProof RunProof4 RefSpec RefProof RefProof3 RefProof4 RefProof5 AderProof3 AderProof4 RestSpec RestProof RestProof2 RestProof3 RestProof5 Base Options Sum Mat3 PhysModel PhysInst EqModel FvModel FvBody WenoModel DgModel GridModel StepperModel AderModel HomogModel PolyModel UtilsModel IterModel StepperProps RunModel RunProps RelaxModel Split3Props MirrorProof5 MirrorProps RunProof2 RunProof3 Run2Props RefProps RestProof4 RestProps SymGasProps
  HandProps ScaleProof1 ScaleProof2 ScaleProof3.
Import List ListNotations.
Open Scope R_scope.

(** the material in the new unit *)
Definition in_unit (lam : R) (m : matpar) : matpar := mkmatpar (similar lam (mp_par m)) (mp_void m).

(** the sources enter the step only where they are asked for *)
Definition with_source (ph : phys) (s : vec -> vec) : phys :=
  mkphys (EqModel.pressure ph) (EqModel.sigma ph) (temperature ph) (calpha2 ph) s (EqModel.max_abs_eigs ph) (jacobian ph) (EqModel.eigabs ph).
Lemma gpr_similar lam o P sm specrad eigabs s s' : gpr o (similar lam P) sm specrad eigabs s' = with_source (gpr o P sm specrad eigabs s) s'.
Proof. reflexivity. Qed.
Section Src.
Variable o : options.
Variable ph : phys.
Variables s s' : vec -> vec.
Variables NODES WGHTS : nat -> R.
Variables ENDVALS DERVALS : nat -> nat -> R.
Lemma center_src dt dX n TIME : center_num o (with_source ph s) WGHTS DERVALS dt dX n false TIME = center_num o (with_source ph s') WGHTS DERVALS dt dX n false TIME.
Proof using. do 2 (apply functional_extensionality; intros ?). unfold center_num. destruct x0; [|reflexivity]. reflexivity. Qed.
Lemma face_src FLUX dt dX n TIME : face_num o (with_source ph s) NODES WGHTS ENDVALS FLUX dt dX n TIME = face_num o (with_source ph s') NODES WGHTS ENDVALS FLUX dt dX n TIME.
Proof using. reflexivity. Qed.
Lemma mid_src dt dX valid n : mid o (with_source ph s) DERVALS dt dX valid n = mid o (with_source ph s') DERVALS dt dX valid n.
Proof using. reflexivity. Qed.
End Src.

Section Similar.
Variable lam : R.
Hypothesis L : 0 < lam.
Variable o : options.
Variables NODES WGHTS : nat -> R.
Variables ENDVALS DERVALS : nat -> nat -> R.
Variables (SIG : nat -> nat -> R) (LAMS LAMC EPS : R) (inv : stencil -> (nat -> R) -> nat -> R).
Variable wallf : nat -> nat -> num -> num.
(** external: the pressure solve of mixtures, Eigen's eigenvalues, eigenvectors and singular values *)
Variables (K : rates) (sm : vec -> R * R * R) (specrad : EqModel.mat -> R) (eigabs : EqModel.mat -> vec -> vec) (z : option R) (svd5 : mat3 -> mat3 * vec3 * mat3).
Variable prim : matpar -> option ((num -> num) * (num -> num)).
Variable valid : matpar -> nodal -> bool.
Variables (SPLIT HALF_STEP : bool) (FLUX : nat) (nX : list nat) (bt : nat -> nat) (dX : list R).
Variables team team' : matpar -> grid -> list bool -> R -> nat * list nat.
Variables Phi Phi' : matpar -> R -> nat -> list num -> res (option (nat -> option nodal)).
Notation rho m := (rho0 (prm (mp_par m))).
Notation K' := (slower lam K).
Notation z' := (option_map (fun x => x / lam) z).
Notation physK K := (fun m => gpr o (mp_par m) sm specrad eigabs (source_or_zero o (mp_par m) K sm)).
Notation odeK K z := (fun m => code_relaxation o (mp_par m) K sm z svd5).
Notation dX' := (map (Rmult lam) dX).
(** what a material must have: a power law fluid has a positive viscosity; for the predictor, which uses the sources, also: a Newtonian fluid has exponent 1 *)
Definition comparable (m : matpar) : Prop := flows (mp_par m) /\ (SPLIT = false -> plain (mp_par m)).
(** the conversions for PRIM_RECONSTRUCT and the domain of the constitutive functions, which depend on the equation of state only *)
Definition unaffected (m : matpar) : Prop := prim (in_unit lam m) = prim m /\ valid (in_unit lam m) = valid m.
(** the threads move in the same order *)
Definition same_order (m : matpar) : Prop := forall g k dt, team' (in_unit lam m) g k (lam * dt) = team m g k dt.

Lemma spacing_scale n : (n <= length dX)%nat -> stretched lam n (spacing dX) (spacing dX').
Proof using. clear L. intros H d Hd. unfold spacing. rewrite (nth_indep _ 1 (lam * 1)) by (rewrite map_length; lia). apply map_nth. Qed.

Notation advance := (run_advance o NODES WGHTS ENDVALS DERVALS SIG LAMS LAMC EPS inv wallf (physK K) prim Phi valid (odeK K z) SPLIT HALF_STEP FLUX nX bt dX team).
Notation advance' := (run_advance o NODES WGHTS ENDVALS DERVALS SIG LAMS LAMC EPS inv wallf (physK K') prim Phi' valid (odeK K' z') SPLIT HALF_STEP FLUX nX bt dX' team').
(** one step of one material, with its boundary cells, masks and threads: the same in every cell, or the same failure *)
Theorem step_similar m g k dt : length nX = 1%nat \/ length nX = 2%nat -> length dX = length nX -> comparable m -> unaffected m -> same_order m ->
  (SPLIT = false -> forall l, Phi' (in_unit lam m) (lam * dt) (length nX) l = Phi m dt (length nX) l) -> advance' (in_unit lam m) g k (lam * dt) = advance m g k dt.
Proof using L.
  intros Hn HdX [HF HP] [Hp Hv] HT HPhi. unfold run_advance. apply bind_ext. intros ub. apply bind_ext. intros mb. rewrite HT. destruct (team m g k dt) as [n sched].
  pose proof (spacing_scale (length nX) ltac:(lia)) as HX. apply (f_equal (fun c => bind c (fun c => if all_done c then buf_grid (snd c) else NoFuel))). unfold run_para. rewrite Hp, Hv. cbn [in_unit mp_par].
  destruct SPLIT.
  - replace (code_relaxation o (similar lam (mp_par m)) K' sm z' svd5 (lam * dt / 2)) with (code_relaxation o (mp_par m) K sm z svd5 (dt / 2)).
    + set (s0 := source_or_zero o (mp_par m) K sm). set (s1 := source_or_zero o (similar lam (mp_par m)) K' sm). rewrite (gpr_similar lam o (mp_par m) sm specrad eigabs s0 s1). set (ph := gpr o (mp_par m) sm specrad eigabs s0).
      assert (W : weaker lam ph = with_source ph (fun q k => EqModel.source ph q k / lam)) by reflexivity. clearbody ph s1. apply split_para_cong.
      * apply functional_extensionality. intros b. rewrite (face_src o ph s1 (fun q k => EqModel.source ph q k / lam)), <- W. apply face_scale; try assumption. lra.
      * rewrite (center_src o ph s1 (fun q k => EqModel.source ph q k / lam)), <- W. apply center_scale; try assumption. lra.
      * rewrite (mid_src o ph s1 (fun q k => EqModel.source ph q k / lam)), <- W. apply mid_scale; try assumption. lra.
    + apply functional_extensionality. intros c. replace (lam * dt / 2) with (lam * (dt / 2)) by field. symmetry. apply relaxation_scale; assumption.
  - rewrite (phys_scale lam L o (mp_par m) K sm specrad eigabs HF (HP eq_refl)). apply ader_para_cong.
    + apply functional_extensionality. intros b. apply face_scale; try assumption. lra.
    + apply center_scale; try assumption. lra.
    + apply functional_extensionality. intros l. apply HPhi. reflexivity.
Qed.
(** the wave speeds and the predictor of the code satisfy what is asked for below *)
Definition code_speed (q : vec) (d : nat) (m : matpar) : option R := Some (PhysInst.max_abs_eigs o (mp_par m) sm specrad q d).
Lemma code_speed_similar q d m : code_speed q d (in_unit lam m) = code_speed q d m.
Proof using. reflexivity. Qed.
Lemma code_predictor_similar DG_DER DG_M DG_IT DG_TOL solve nonlin_solve nan_far STIFF STIFF_IG m dt l : length nX = 1%nat \/ length nX = 2%nat -> length dX = length nX -> SPLIT = false -> comparable m -> unaffected m ->
  DgModel.Phi o (physK K' (in_unit lam m)) WGHTS ENDVALS DERVALS DG_DER DG_M (lam * dt) (spacing dX') DG_IT DG_TOL solve nonlin_solve (valid (in_unit lam m)) nan_far STIFF STIFF_IG (length nX) l
  = DgModel.Phi o (physK K m) WGHTS ENDVALS DERVALS DG_DER DG_M dt (spacing dX) DG_IT DG_TOL solve nonlin_solve (valid m) nan_far STIFF STIFF_IG (length nX) l.
Proof using L.
  intros Hn HdX HS [HF HP] [_ Hv]. cbn beta. rewrite Hv. cbn [in_unit mp_par]. rewrite (phys_scale lam L o (mp_par m) K sm specrad eigabs HF (HP HS)). apply Phi_scale; try assumption; [lra|]. apply spacing_scale. lia.
Qed.

(** C100. Any number of materials without level sets; every outcome, also an error, of the one run is that of the other. *)
Theorem dynamic_similarity svd speed fill nan ROT CFL tf tol MPs fuel u : LSET o = 0%nat -> length nX = 1%nat \/ length nX = 2%nat -> length dX = length nX ->
  (forall m, In m MPs -> comparable m /\ unaffected m /\ same_order m /\ (SPLIT = false -> forall dt l, Phi' (in_unit lam m) (lam * dt) (length nX) l = Phi m dt (length nX) l)) ->
  (forall q d m, speed q d (in_unit lam m) = speed q d m) ->
  program o NODES WGHTS ENDVALS DERVALS SIG LAMS LAMC EPS inv wallf (physK K') prim Phi' valid (odeK K' z') SPLIT HALF_STEP FLUX nX bt dX' team' svd speed fill nan ROT CFL (lam * tf) tol (map (in_unit lam) MPs) fuel u
  = res_map (later_run lam) (program o NODES WGHTS ENDVALS DERVALS SIG LAMS LAMC EPS inv wallf (physK K) prim Phi valid (odeK K z) SPLIT HALF_STEP FLUX nX bt dX team svd speed fill nan ROT CFL tf tol MPs fuel u).
Proof using L.
  intros HL Hn HdX HM Hsp. unfold program. apply iterator_scale; [exact L|reflexivity|reflexivity|reflexivity|exact Hsp| |exact HL].
  intros m g k dt Hm. destruct (HM m Hm) as (H1 & H2 & H3 & H4). apply step_similar; try assumption. intros HS l. apply H4. exact HS.
Qed.
(** the same, read off a run that ends: same field, times lam times as late, the same snapshots in the same slots *)
Corollary similar_run svd speed fill nan ROT CFL tf tol MPs fuel u s b : LSET o = 0%nat -> length nX = 1%nat \/ length nX = 2%nat -> length dX = length nX ->
  (forall m, In m MPs -> comparable m /\ unaffected m /\ same_order m /\ (SPLIT = false -> forall dt l, Phi' (in_unit lam m) (lam * dt) (length nX) l = Phi m dt (length nX) l)) ->
  (forall q d m, speed q d (in_unit lam m) = speed q d m) ->
  program o NODES WGHTS ENDVALS DERVALS SIG LAMS LAMC EPS inv wallf (physK K) prim Phi valid (odeK K z) SPLIT HALF_STEP FLUX nX bt dX team svd speed fill nan ROT CFL tf tol MPs fuel u = Ok (s, b) ->
  exists s', program o NODES WGHTS ENDVALS DERVALS SIG LAMS LAMC EPS inv wallf (physK K') prim Phi' valid (odeK K' z') SPLIT HALF_STEP FLUX nX bt dX' team' svd speed fill nan ROT CFL (lam * tf) tol (map (in_unit lam) MPs) fuel u = Ok (s', b) /\
    s_u s' = s_u s /\ s_t s' = lam * s_t s /\ s_count s' = s_count s /\ forall i g t, bdat (s_ret s) i = Some (g, t) -> bdat (s_ret s') i = Some (g, lam * t).
Proof using L.
  intros HL Hn HdX HM Hsp E. pose proof (dynamic_similarity svd speed fill nan ROT CFL tf tol MPs fuel u HL Hn HdX HM Hsp) as D. rewrite E in D. unfold res_map, later_run in D. cbn [bind fst snd] in D.
  eexists. split; [exact D|]. cbn [later s_u s_t s_count s_ret later_output bdat]. split; [reflexivity|]. split; [reflexivity|]. split; [reflexivity|]. intros i g t H. unfold later, later_output. cbn [s_ret bdat]. rewrite H. reflexivity.
Qed.
End Similar.

(** A concrete case: the gas of [gas_computes_case] with Roe's flux, the relaxation of the code and three threads, on cells twice as large, until time 2, twice as viscous. *)
Example similar_case Phi svd fill tol : let m := MirrorProps.ex_gas in let m' := in_unit 2 m in
  mu (prm (mp_par m')) = 2 * mu (prm (mp_par m)) /\
  exists nodes bs w inv SIG team,
  let ph K := gas_phys ex_opt K (fun _ => (0, 0, 0)) MirrorProps.ex_specrad still_eigabs in let ode K := gas_ode ex_opt K (fun _ => (0, 0, 0)) None still_svd in
  exists s, program ex_opt (fun k => nth k nodes 0) w (end_values bs) (Dv bs nodes) SIG 1 100000 (1 / 100) inv (gas_wall ex_opt (fun q => q)) (ph MirrorProps.ex_rates) (fun _ => None) Phi (fun _ _ => true) (ode MirrorProps.ex_rates) true true 1 [4%nat] (fun _ => 1%nat) [1] team
      svd (fun _ _ _ => Some 1) fill (fun _ => false) false (1 / 2) 1 tol [m] 11 still_line = Ok (s, false) /\ s_t s = 1 /\
  exists s', program ex_opt (fun k => nth k nodes 0) w (end_values bs) (Dv bs nodes) SIG 1 100000 (1 / 100) inv (gas_wall ex_opt (fun q => q)) (ph (slower 2 MirrorProps.ex_rates)) (fun _ => None) Phi (fun _ _ => true) (ode (slower 2 MirrorProps.ex_rates)) true true 1 [4%nat] (fun _ => 1%nat) [2 * 1]
      (fun _ g k dt => team m g k (dt / 2)) svd (fun _ _ _ => Some 1) fill (fun _ => false) false (1 / 2) (2 * 1) tol [m'] 11 still_line = Ok (s', false) /\ s_t s' = 2 /\ s_u s' = s_u s.
Proof.
  intros m m'. split; [reflexivity|]. destruct (gas_computes_case Phi svd fill fill tol) as (nodes & bs & w & inv & SIG & team & T & s & _ & Et & E). exists nodes, bs, w, inv, SIG, team. cbv zeta. exists s. split; [exact E|]. split; [exact Et|].
  destruct (similar_run 2 ltac:(lra) ex_opt (fun k => nth k nodes 0) w (end_values bs) (Dv bs nodes) SIG 1 100000 (1 / 100) inv (gas_wall ex_opt (fun q => q)) MirrorProps.ex_rates (fun _ => (0, 0, 0)) MirrorProps.ex_specrad still_eigabs None still_svd (fun _ => None) (fun _ _ => true)
    true true 1 [4%nat] (fun _ => 1%nat) [1] team (fun _ g k dt => team m g k (dt / 2)) Phi Phi svd (fun _ _ _ => Some 1) fill (fun _ => false) false (1 / 2) 1 tol [m] 11 still_line s false) as (s' & E' & Eu & Et' & _); try reflexivity; try (left; reflexivity).
  - intros m0 [<-|[]]. split; [split; [|discriminate]|split; [split; reflexivity|split; [|discriminate]]].
    + intros H. discriminate H.
    + intros g k dt. replace (2 * dt / 2) with dt by field. reflexivity.
  - exact E.
  - exists s'. split; [exact E'|]. split; [rewrite Et', Et; ring|exact Eu].
Qed.
Print Assumptions step_similar.
Print Assumptions dynamic_similarity.
Print Assumptions similar_run.
