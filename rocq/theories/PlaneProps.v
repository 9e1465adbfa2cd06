(** C102: plane motion stays plane. *)
From Coq Require Import Reals Lia Lra ZArith FunctionalExtensionality.
From Verif Require Import Base Options Sum Mat3 EqModel FvModel FvBody FvSpec PolyModel WenoModel WenoSpec WenoProof WenoProps DgModel DgSpec DgProof2 DgProps GridModel GridSpec GridProof GridProps StepperModel AderModel
  UtilsModel UtilsProof UtilsProps IterModel IterSpec IterProof2 IterProps Split3Props SafeProof RunModel RunProof RunProof2 RunProps RunProof3 RunProof4 Run2Props RefSpec RefProof RefProof3 RefProof4 RefProof5 RefProps MirrorProof5 AderProof3 AderProof4 FlatProof FlatProof3 RestProps SymGasProps HandProps PlaneSpec PlaneProof PlaneProof2 PlaneProof3 PlaneJac2.
From Verif Require MirrorProps RelaxSpec.
Import List ListNotations.
Open Scope string_scope.
Open Scope nat_scope.

Section Step.
Variable o : options.
Variables (nodes : list R) (bs : list poly).
Variables NODES WGHTS : nat -> R.
Variables ENDVALS DERVALS : nat -> nat -> R.
Variables (SIG : nat -> nat -> R) (LAMS LAMC EPS : R) (inv : stencil -> (nat -> R) -> nat -> R).
Variable wallf : nat -> nat -> num -> num.
Variable ph : matpar -> phys.
Variable prim : matpar -> option ((num -> num) * (num -> num)).
Variable Phi : matpar -> R -> nat -> list num -> res (option (nat -> option nodal)).
Variable valid : matpar -> nodal -> bool.
Variable ode : matpar -> R -> num -> num.
Variables (SPLIT HALF_STEP : bool) (FLUX : nat) (nX : list nat) (bt : nat -> nat) (dX : list R).
Variable team : matpar -> grid -> list bool -> R -> nat * list nat.
Variable e : nat.
Notation advance := (run_advance o NODES WGHTS ENDVALS DERVALS SIG LAMS LAMC EPS inv wallf ph prim Phi valid ode SPLIT HALF_STEP FLUX nX bt dX team).
Notation cells := (fold_right Nat.mul 1 nX).
Notation conf := (configured o Phi SPLIT FLUX nX bt dX team).
Notation fin := (finishing o NODES WGHTS ENDVALS DERVALS SIG LAMS LAMC EPS inv wallf ph prim Phi valid ode SPLIT HALF_STEP FLUX nX bt dX team).
Notation ready m := (ready o SIG LAMS LAMC EPS inv wallf prim nX bt m nodes bs).
Notation met := (met o NODES WGHTS ENDVALS DERVALS SIG LAMS LAMC EPS inv wallf ph prim Phi valid ode SPLIT HALF_STEP FLUX nX bt dX).
Notation stepped := (stepped o NODES WGHTS ENDVALS DERVALS SIG LAMS LAMC EPS inv wallf ph prim Phi ode SPLIT HALF_STEP FLUX nX bt dX).

(** direction e is not one of the grid, and nothing that is handed to the solver leaves the plane across it *)
Record plane_setup (m : matpar) : Prop := {
  pl_off : length nX <= e < 3; pl_viscous : VISCOUS o = true; pl_flow : planar o (ph m) e; pl_waves : level_waves o (ph m) e FLUX;
  pl_prim : match prim m with Some (p, c) => keeps o e p /\ keeps o e c | None => True end;
  pl_walls : flat_walls o e wallf bt (length nX);
  pl_relax : SPLIT = true -> forall h, keeps o e (ode m h);
  pl_predict : SPLIT = false -> forall dt, predicts_plane o e (Phi m dt) (length nX) }.

Lemma stepped_plane m (g : grid) k dt : good_dims o nX -> length nodes = N o -> weno_setup nodes bs inv SIG LAMS LAMC EPS -> plane_setup m -> length g = cells -> Forall (plane o e) g -> Forall (plane o e) (stepped m g k dt).
Proof using.
  intros HD Ln HW [HE HV HP HLW HPr HWa HO HPd] Lg Hg.
  assert (G : forall i, i < cells -> plane o e (nth i g (fun _ => 0%R))) by (intros i Hi; apply (proj1 (Forall_nth (plane o e) g) Hg); lia).
  apply Forall_forall. intros x Hx. unfold RefProps.stepped in Hx. destruct HD as [(nx & EnX & Hx')|(nx & ny & EnX & Hx' & Hy)]; rewrite EnX in *; cbn [length fold_right] in *; rewrite Nat.mul_1_r in *; apply in_map_iff in Hx; destruct Hx as (c & <- & Hc); apply in_seq in Hc.
  - apply new1_plane with (nodes := nodes) (bs := bs); try assumption; try lia; auto.
  - assert (ny <> 0) by lia. apply new2_plane with (nodes := nodes) (bs := bs); try assumption; try lia; auto.
    + intros a b Ha Hb. apply G. nia.
    + apply Nat.div_lt_upper_bound; lia.
    + apply Nat.mod_upper_bound. assumption.
Qed.
(** A step of the solver from a state without motion, shear or heat impulse across the plane gives such a state. *)
Theorem step_plane_partial m (g : grid) k dt : conf -> fin -> ready m -> (length nX = 2 -> NO_CORNERS o = false) -> plane_setup m -> length g = cells -> length k = cells -> met m g k dt -> Forall (plane o e) g ->
  exists h, advance m g k dt = Ok h /\ length h = cells /\ Forall (plane o e) h.
Proof using.
  intros HC HF HR HNC HS Lg Lk HM Hg. exists (stepped m g k dt). split; [apply step_computes_met with (nodes := nodes) (bs := bs); assumption|].
  split; [apply stepped_length with (team := team); exact HC|]. pose proof HC as [_ HD _ _ _]. destruct HR as (Ln & HW & _). apply stepped_plane; assumption.
Qed.

Section Run.
Variable svd : mat3 -> vec3 * mat3.
Variable speed : vec -> nat -> matpar -> option R.
Variable fill : list grid -> list (list bool) -> grid -> R -> res (grid * list grid * list (list bool)).
Variable nan : grid -> bool.
Variables (CFL tf tol : R) (m : matpar).
Notation prog := (program o NODES WGHTS ENDVALS DERVALS SIG LAMS LAMC EPS inv wallf ph prim Phi valid ode SPLIT HALF_STEP FLUX nX bt dX team svd speed fill nan false CFL tf tol [m]).
Notation handed := (handed o svd speed fill advance nan false dX CFL tf tol m).
(** C102. So does a run: the state at the end and every snapshot have no velocity, no shear and no heat impulse across the plane. *)
Theorem run_plane_partial fuel (u : grid) s b : LSET o = 0 -> mp_void m = false -> conf -> fin -> ready m -> (length nX = 2 -> NO_CORNERS o = false) -> plane_setup m -> length u = cells ->
  (forall g dt, handed (init [m] u) g dt -> met m g (repeat true cells) dt) -> Forall (plane o e) u -> prog fuel u = Ok (s, b) -> holds_of_output (fun _ g => Forall (plane o e) g) s.
Proof using.
  intros HL HM HC HF HR HNC HS Lu HMt Hu E. pose proof HS as [HE HV _ _ _ _ _ _]. pose proof HR as (Ln & HW & _). pose proof HC as [_ HD _ _ _].
  rewrite (run_computes_met_program o NODES WGHTS ENDVALS DERVALS SIG LAMS LAMC EPS inv wallf ph prim Phi valid ode SPLIT HALF_STEP FLUX nX bt dX team svd speed fill fill nan false CFL tf tol m nodes bs fuel u HC HF HNC HV HL HM HR Lu HMt) in E.
  unfold iterator in E.
  destruct (run_keeps o svd speed fill (fun m g k dt => Ok (stepped m g k dt)) nan false dX CFL tf tol m HL HM (fun _ g => Forall (plane o e) g) (fun _ => True) cells) with (fuel := fuel) (s := init [m] u) (s' := s) (b := b) as [K1 K2]; auto.
  - intros t g c dt u1 u2 u' Pg _ Lg _ EA EC _ EP. injection EA as <-. split.
    + refine (post_plane o e _ HV m svd HL HM tol (S c) _ u' EP _); [lia|]. apply stepped_plane; assumption.
    + destruct (post_returns o svd false tol m HL (S c) (stepped m g (repeat true cells) dt) HV) as (x & X & LX). rewrite EP in X. injection X as <-. rewrite LX.
      apply stepped_length with (team := team). exact HC.
  - exists u. reflexivity.
  - cbn [init s_masks length repeat]. rewrite Lu. reflexivity.
  - intros i x Hx. left. cbn [init s_ret ret0 bdat] in Hx. congruence.
  - split; [exact K1|]. intros i g t Hi. destruct (K2 i _ Hi) as [X|X]; [left; injection X as -> ->; auto|right; exact X].
Qed.
End Run.
End Step.

(** ** The equations, boundary conditions, relaxation and predictor of the code are such *)
Section Code.
Variable o : options.
Variables (nodes : list R) (bs : list poly) (w : nat -> R).
Variable ds : vec -> vec.
Variables (K : PhysInst.rates) (sm : vec -> R * R * R) (specrad : EqModel.mat -> R) (eigabs : EqModel.mat -> vec -> vec) (z : option R) (svd5 : mat3 -> mat3 * vec3 * mat3).
Variables (dXf : nat -> R) (DG_IT : nat) (DG_TOL : R) (solve : nat -> nodal -> nodal).
Variable nonlin_solve : (option nodal -> res (option nodal)) -> option nodal -> res (option nodal).
Variables (valid : nodal -> bool) (nan_far : option nodal -> option nodal -> bool) (STIFF STIFF_IG SPLIT : bool).
Variables (FLUX : nat) (nX : list nat) (bt : nat -> nat) (e : nat) (m : matpar).
Notation ph := (gas_phys o K sm specrad eigabs).
Definition code_predictor (m : matpar) (dt : R) : nat -> list num -> res (option (nat -> option nodal)) :=
  Phi o (ph m) w (end_values bs) (Dv bs nodes) (Dmat bs (fun k => nth k nodes 0%R) w) (Mof nodes bs w) dt dXf DG_IT DG_TOL solve nonlin_solve valid nan_far STIFF STIFF_IG.
(** Without a reaction or a body force across the plane. The singular value decomposition is one that does not leave the plane, see [correct_svd_level]; nor does the root finder. Nor, for the fluxes of Roe and Osher, does the
    eigenvalue solver, see [right_solver_plane]. *)
Theorem code_plane_setup : VISCOUS o = true -> DESTRESS o = false -> (PhysModel.REACTION (mp_par m) < 0)%Z -> PhysModel.body (mp_par m) e = 0%R -> length nX = 1 \/ length nX = 2 -> length nX <= e < 3 -> (FLUX = 0 \/ forall M x, sided o e M -> plane o e x -> plane o e (eigabs M x)) ->
  (SPLIT = true -> level_svd e svd5) ->
  (SPLIT = false -> length nodes = N o /\ dg_basis nodes bs w /\ plane_finder o e nonlin_solve (N o ^ (length nX + 1)) /\ solver_of o nodes bs w solve (length nX)) ->
  plane_setup o (gas_wall o ds) ph (fun _ => None) code_predictor (gas_ode o K sm z svd5) SPLIT FLUX nX bt e m.
Proof using.
  intros HV HD HR HB Hn HE HX HO HPd. assert (HP : planar o (ph m) e) by (apply code_planar; try assumption; lia). split; try assumption.
  - destruct HX as [HX|HX]; [left; exact HX|right]. split; [|exact HX]. intros q d Hd Hde Hq. apply code_matrix_sided; try assumption; lia.
  - exact I.
  - intros k Hk Hb. split; [intros v; eexists; reflexivity|]. apply wall_plane; try assumption; try lia. pose proof (Nat.div_lt_upper_bound k 2 (length nX) ltac:(lia) ltac:(lia)). lia.
  - intros HSp h. apply relaxation_plane; try assumption; try lia. apply HO, HSp.
  - intros HSp dt q t Hq Ht. destruct (HPd HSp) as (Ln & B & F & S). apply (predictor_plane o e); try assumption; try lia.
Qed.
End Code.
(** a solver that computes |M| x of every diagonalisable matrix stays in the plane for those that do not couple the two sides, as the system matrix of a plane state *)
Theorem right_solver_plane o e (eigabs : EqModel.mat -> vec -> vec) n :
  (forall M Rt L l x, MirrorJac.spectral n M Rt L l -> forall k, eigabs M x k = if k <? n then MirrorJac.absolute n Rt L l x k else 0%R) ->
  forall M x, (exists Rt L l, MirrorJac.spectral n M Rt L l) -> sided o e M -> plane o e x -> plane o e (eigabs M x).
Proof. exact (right_abs_plane o e eigabs n). Qed.
Theorem code_matrix_level o e K sm specrad eigabs m q d : VISCOUS o = true -> e < 3 -> d < 3 -> d <> e -> plane o e q -> sided o e (system_matrix o (gas_phys o K sm specrad eigabs m) q d).
Proof. intros HV He Hd Hde. apply code_matrix_sided; assumption. Qed.

(** Four cells of a gas sheared in the plane of x and y and moving in it, between the walls of the code, with a drag as the relaxation and two threads: the run ends, and nothing in it has left the plane. *)
Definition plane_cell (v s : R) : vec := fun k => if k =? 0 then 1%R else if k =? 1 then 9%R else if k =? 2 then v else if k =? 3 then s else if (k =? 5) || (k =? 9) || (k =? 13) then 1%R else if k =? 6 then s else 0%R.
Definition plane_line : grid := [plane_cell 1 0; plane_cell 2 1; plane_cell (-1) 2; plane_cell 0 (-1)].
Lemma plane_cell_plane v s : plane ex_opt 2 (plane_cell v s).
Proof. intros k Hk. do 17 (destruct k as [|k]; [first [discriminate Hk|reflexivity]|]). reflexivity. Qed.
Example plane_case Phi svd fill tol : let m := MirrorProps.ex_gas in
  exists nodes bs w inv SIG team, (forall m g k dt, fst (team m g k dt) = 2) /\
  exists s, program ex_opt (fun k => nth k nodes 0%R) w (end_values bs) (Dv bs nodes) SIG 1 100000 (1 / 100) inv (gas_wall ex_opt (fun q => q)) MirrorProps.ex_phys (fun _ => None) Phi (fun _ _ => true) MirrorProps.ex_drag true true 0 [4] (fun _ => 3) [1%R] team
      svd (fun _ _ _ => Some 1%R) fill (fun _ => false) false (1 / 2) 1 tol [m] 11 plane_line = Ok (s, false) /\ s_t s = 1%R /\ holds_of_output (fun _ g => Forall (plane ex_opt 2) g) s.
Proof.
  intros m. destruct dg_basis_hyps as [nodes [bs [w [G L]]]]. pose proof G as [Dn [Bn _]]. destruct (weno_hyps nodes Dn ltac:(lia)) as [bs' [inv [SIG HW]]].
  pose proof HW as [_ [Bn' _]]. rewrite Bn in Bn'. injection Bn' as <-.
  assert (C : forall team : matpar -> grid -> list bool -> R -> nat * list nat, (forall m g k dt, 0 < fst (team m g k dt)) -> configured ex_opt Phi true 0 [4] (fun _ => 3) [1%R] team).
  { intros team T. split.
    - split; [reflexivity|]. split; [lia|]. split; cbn; lra.
    - left. exists 4. split; [reflexivity|]. cbn. lia.
    - intros k Hk. lia.
    - intros. apply T.
    - discriminate. }
  assert (FE : exists team, (forall m g k dt, fst (team m g k dt) = 2) /\
     finishing ex_opt (fun k => nth k nodes 0%R) w (end_values bs) (Dv bs nodes) SIG 1 100000 (1 / 100) inv (gas_wall ex_opt (fun q => q)) MirrorProps.ex_phys (fun _ => None) Phi (fun _ _ => true) MirrorProps.ex_drag true true 0 [4] (fun _ => 3) [1%R] team).
  { apply (finishing_exists ex_opt (fun k => nth k nodes 0%R) w (end_values bs) (Dv bs nodes) SIG 1 100000 (1 / 100) inv (gas_wall ex_opt (fun q => q)) MirrorProps.ex_phys (fun _ => None) Phi (fun _ _ => true) MirrorProps.ex_drag true true 0 [4] (fun _ => 3) [1%R]
      (fun _ _ _ _ => 2)); [lia|]. apply (C (fun _ _ _ _ => (2, []))). intros. cbn. lia. }
  destruct FE as (team & T & F). exists nodes, bs, w, inv, SIG, team. split; [exact T|].
  pose proof (C team ltac:(intros; rewrite T; lia)) as CT.
  assert (NU : numeric ex_opt SIG 1 100000 (1 / 100) inv (gas_wall ex_opt (fun q => q)) (fun _ => None) Phi (fun _ _ => true) MirrorProps.ex_drag true true [4] (fun _ => 3) m nodes bs).
  { split; [exact L|]. split; [exact HW|]. split; [exact I|]. split; [intros k Hk; split; [lia|intros _ v; eexists; reflexivity]|]. split; [intros h v; eexists; reflexivity|reflexivity]. }
  assert (RM : forall g k dt, _) by (intros g k dt; exact (numeric_met ex_opt (fun k => nth k nodes 0%R) w (end_values bs) (Dv bs nodes) SIG 1 100000 (1 / 100) inv (gas_wall ex_opt (fun q => q)) MirrorProps.ex_phys (fun _ => None) Phi (fun _ _ => true) MirrorProps.ex_drag true true 0 [4] (fun _ => 3) [1%R] team CT nodes bs m g k dt NU)).
  destruct (run_completes_met ex_opt (fun k => nth k nodes 0%R) w (end_values bs) (Dv bs nodes) SIG 1 100000 (1 / 100) inv (gas_wall ex_opt (fun q => q)) MirrorProps.ex_phys (fun _ => None) Phi (fun _ _ => true) MirrorProps.ex_drag true true 0 [4] (fun _ => 3) [1%R] team
    svd (fun _ _ _ => Some 1%R) fill (fun _ => false) false (1 / 2) 1 tol m nodes bs 1 11 plane_line CT F) as (s & E & Et & _); try reflexivity; try (cbn; lra); try discriminate.
  - apply (RM [] [] 0%R).
  - intros g dt _. apply RM.
  - split; [lra|]. intros q m' c H. cbn [speed_sum]. specialize (H 0 ltac:(cbn; lia)). injection H as H. rewrite <- H. lra.
  - exists s. split; [exact E|]. split; [exact Et|].
    apply (run_plane_partial ex_opt nodes bs (fun k => nth k nodes 0%R) w (end_values bs) (Dv bs nodes) SIG 1 100000 (1 / 100) inv (gas_wall ex_opt (fun q => q)) MirrorProps.ex_phys (fun _ => None) Phi (fun _ _ => true) MirrorProps.ex_drag true true 0 [4] (fun _ => 3) [1%R] team 2
      svd (fun _ _ _ => Some 1%R) fill (fun _ => false) (1 / 2) 1 tol m 11 plane_line s false); try reflexivity; try assumption; try discriminate.
    + apply (RM [] [] 0%R).
    + split; [cbn; lia|reflexivity| |left; reflexivity|exact I| | |discriminate].
      * apply code_planar; try reflexivity; lia.
      * intros k Hk _. split; [intros v; eexists; reflexivity|]. apply wall_plane; try reflexivity; try lia. pose proof (Nat.div_lt_upper_bound k 2 1 ltac:(lia) ltac:(cbn in Hk; lia)). lia.
      * intros _ h q Hq k Hk. cbn. destruct (k =? 2); rewrite (Hq k Hk); ring.
    + intros g dt _. apply RM.
    + repeat (constructor; [apply plane_cell_plane|]); constructor.
Qed.
(** a root finder that takes one damped step of fixed point iteration stays in the plane, and so does a decomposition with diagonal factors; with them the equations of the code keep the plane, relaxed or predicted *)
Definition damped (F : option nodal -> res (option nodal)) (q : option nodal) : res (option nodal) :=
  r <- F q ;; Ok (match q, r with Some x, Some y => Some (fun s k => x s k - y s k / 2)%R | _, _ => None end).
Lemma damped_plane o e n : plane_finder o e damped n.
Proof.
  intros F q0 q HF H0 E. unfold damped in E. apply bind_ok in E. destruct E as ([y|] & EY & E); [|discriminate]. injection E as <-. pose proof (HF q0 y H0 EY) as HY.
  intros s Hs k Hk. rewrite (H0 s Hs k Hk), (HY s Hs k Hk). lra.
Qed.
Definition diagonal_svd (A : mat3) : mat3 * vec3 * mat3 := ((fun i j => if Nat.eqb i j then if Rle_dec 0 (A i i) then 1 else -1 else 0)%R, (fun i => Rabs (A i i))%R, fun i j => (if Nat.eqb i j then 1 else 0)%R).
Lemma diagonal_svd_level e : e < 3 -> level_svd e diagonal_svd.
Proof.
  intros He A _. unfold diagonal_svd. intros _ _ f i j Hi Hj. set (g := fun i => if Rle_dec 0 (A i i) then 1%R else (-1)%R). change (fun i0 j0 => if Nat.eqb i0 j0 then if Rle_dec 0 (A i0 i0) then 1%R else (-1)%R else 0%R) with (fun i0 j0 => if Nat.eqb i0 j0 then g i0 else 0%R).
  clearbody g. destruct i as [|[|[|i]]]; try lia; destruct j as [|[|[|j]]]; try lia; destruct e as [|[|[|]]]; try lia; unfold reversed, reversal, RelaxSpec.assemble, mmul, mtr, RelaxSpec.diag, sum3; cbn; ring.
Qed.
Example code_plane_case SPLIT FLUX DG_IT DG_TOL valid nan_far STIFF STIFF_IG bt : exists nodes bs w solve,
  plane_setup ex_opt (gas_wall ex_opt (fun q => q)) (gas_phys ex_opt MirrorProps.ex_rates (fun _ => (0, 0, 0)%R) MirrorProps.ex_specrad (fun _ x => x)) (fun _ => None)
    (code_predictor ex_opt nodes bs w MirrorProps.ex_rates (fun _ => (0, 0, 0)%R) MirrorProps.ex_specrad (fun _ x => x) (fun _ => 1%R) DG_IT DG_TOL (fun _ => solve) damped valid nan_far STIFF STIFF_IG)
    (gas_ode ex_opt MirrorProps.ex_rates (fun _ => (0, 0, 0)%R) None diagonal_svd) SPLIT FLUX [4] bt 2 MirrorProps.ex_gas.
Proof.
  destruct dg_basis_hyps as [nodes [bs [w [G L]]]]. destruct (two_node_solver ex_opt nodes bs w G eq_refl L) as [solve S]. exists nodes, bs, w, solve.
  apply (code_plane_setup ex_opt nodes bs w (fun q => q) MirrorProps.ex_rates (fun _ => (0, 0, 0)%R) MirrorProps.ex_specrad (fun _ x => x) None diagonal_svd (fun _ => 1%R) DG_IT DG_TOL (fun _ => solve) damped valid nan_far STIFF STIFF_IG SPLIT FLUX [4] bt 2 MirrorProps.ex_gas eq_refl eq_refl eq_refl eq_refl); [left; reflexivity|split; [apply le_S, le_n|apply le_n]|right; intros M x _ Hx; exact Hx| |].
  - intros _. apply diagonal_svd_level; lia.
  - intros _. split; [exact L|]. split; [exact G|]. split; [apply damped_plane|]. exact S.
Qed.
(** a matrix that swaps two components and stretches the one across: its absolute value is not the identity and leaves a plane vector plane; and the state of the example above as one with a plane matrix *)
Definition swap_stretch (i j : nat) : R := if (i =? 0) && (j =? 1) || (i =? 1) && (j =? 0) then 2%R else if (i =? 2) && (j =? 2) then (-5)%R else 0%R.
Example right_solver_case K sm specrad eigabs v s : exists Rt L l, MirrorJac.spectral 3 swap_stretch Rt L l /\ sided ex_opt 0 swap_stretch /\
  (forall x, plane ex_opt 0 x -> MirrorJac.absolute 3 Rt L l x 1 = (2 * x 1%nat)%R /\ MirrorJac.absolute 3 Rt L l x 2 = 0%R) /\
  sided ex_opt 2 (system_matrix ex_opt (gas_phys ex_opt K sm specrad eigabs MirrorProps.ex_gas) (plane_cell v s) 1).
Proof.
  exists (fun i j => if (i =? 2) && (j =? 2) then 1%R else if (i =? 2) || (j =? 2) then 0%R else if (i =? 1) && (j =? 1) then (-1)%R else 1%R), (fun i j => if (i =? 2) && (j =? 2) then 1%R else if (i =? 2) || (j =? 2) then 0%R else if (i =? 1) && (j =? 1) then (-1 / 2)%R else (1 / 2)%R),
    (fun k => if k =? 0 then 2%R else if k =? 1 then (-2)%R else (-5)%R).
  split; [|split; [|split]].
  - split; [|split]; intros i j Hi Hj; destruct i as [|[|[|i]]]; try lia; destruct j as [|[|[|j]]]; try lia; unfold swap_stretch, rsum; cbn; lra.
  - intros a b H. unfold swap_stretch. destruct a as [|[|[|a]]], b as [|[|[|b]]]; try reflexivity; exfalso; apply H; reflexivity.
  - intros x Hx. unfold MirrorJac.absolute, rsum. cbn. rewrite (Hx 2 eq_refl). rewrite (Rabs_pos_eq 2) by lra. rewrite (Rabs_left (-2)) by lra. split; lra.
  - apply code_matrix_level; try reflexivity; try lia. apply plane_cell_plane.
Qed.
(** With ROT the claim is false, whichever singular value decomposition Eigen computes, since it sorts the stretches: every tenth turn the distortion is replaced by one whose first row is the direction
    of the largest stretch. A cell stretched most across the plane has that direction turned into the first row. *)
Definition lifted_cell (m : matpar) : vec := fun k => if k =? 0 then (2 * PhysModel.rho0 (PhysModel.prm (mp_par m)))%R else if (k =? 5) || (k =? 9) then 1%R else if k =? 13 then 2%R else 0%R.
Definition sorted_svd (A : mat3) (d : vec3 * mat3) : Prop := UtilsProof.is_svd A (fst d) (snd d) /\ RelaxSpec.descending (fst d).
Section Lifted.
Open Scope R_scope.
Lemma lifted_first m svd : sorted_svd (PhysModel.get_A (lifted_cell m)) (svd (PhysModel.get_A (lifted_cell m))) -> UtilsProof.rotated svd (lifted_cell m) 7%nat <> 0.
Proof.
  intros [HS D] Z. pose proof (UtilsProof.rotated_gram svd (lifted_cell m) HS) as G. pose proof (UtilsProof.rotated_A svd (lifted_cell m)) as RA. destruct HS as (Hs & [W1 _] & _).
  assert (E : forall i j, (i < 3)%nat -> (j < 3)%nat -> PhysModel.get_A (UtilsProof.rotated svd (lifted_cell m)) i j = fst (svd (PhysModel.get_A (lifted_cell m))) i * snd (svd (PhysModel.get_A (lifted_cell m))) j i).
  { intros i j Hi Hj. rewrite (RA i j Hi Hj). destruct i as [|[|[|i]]]; try lia; unfold mmul, mtr, UtilsProof.diag3, sum3; cbn [Nat.eqb]; ring. }
  clear RA. destruct (svd (PhysModel.get_A (lifted_cell m))) as [s W] eqn:ES. cbn [fst snd] in *.
  change (UtilsProof.rotated svd (lifted_cell m) 7%nat) with (PhysModel.get_A (UtilsProof.rotated svd (lifted_cell m)) 0%nat 2%nat) in Z. rewrite E in Z by lia.
  assert (GG : forall k l, (k < 3)%nat -> (l < 3)%nat -> s 0%nat * s 0%nat * (W k 0%nat * W l 0%nat) + s 1%nat * s 1%nat * (W k 1%nat * W l 1%nat) + s 2%nat * s 2%nat * (W k 2%nat * W l 2%nat) = if Nat.eqb k l then if Nat.eqb k 2 then 4 else 1 else 0).
  { intros k l Hk Hl. pose proof (G k l Hk Hl) as X. unfold gram, mmul, mtr, sum3 in X. rewrite !E in X by lia. destruct k as [|[|[|k]]]; try lia; destruct l as [|[|[|l]]]; try lia; cbn in X |- *; lra. }
  assert (CC : forall i j, (i < 3)%nat -> (j < 3)%nat -> W 0%nat i * W 0%nat j + W 1%nat i * W 1%nat j + W 2%nat i * W 2%nat j = if Nat.eqb i j then 1 else 0).
  { intros i j Hi Hj. pose proof (W1 i j Hi Hj) as X. unfold mmul, mtr, sum3, id3, delta in X. destruct i as [|[|[|i]]]; try lia; destruct j as [|[|[|j]]]; try lia; cbn in X |- *; lra. }
  clear G E W1 ES.
  assert (EV : forall k, (k < 3)%nat -> (if Nat.eqb k 2 then 4 else 1) * W k 0%nat = s 0%nat * s 0%nat * W k 0%nat).
  { intros k Hk. pose proof (GG k 0%nat Hk ltac:(lia)) as G0. pose proof (GG k 1%nat Hk ltac:(lia)) as G1. pose proof (GG k 2%nat Hk ltac:(lia)) as G2.
    pose proof (CC 0%nat 0%nat ltac:(lia) ltac:(lia)) as C0. pose proof (CC 1%nat 0%nat ltac:(lia) ltac:(lia)) as C1. pose proof (CC 2%nat 0%nat ltac:(lia) ltac:(lia)) as C2. cbn [Nat.eqb] in C0, C1, C2.
    transitivity (s 0%nat * s 0%nat * W k 0%nat * (W 0%nat 0%nat * W 0%nat 0%nat + W 1%nat 0%nat * W 1%nat 0%nat + W 2%nat 0%nat * W 2%nat 0%nat) + s 1%nat * s 1%nat * W k 1%nat * (W 0%nat 1%nat * W 0%nat 0%nat + W 1%nat 1%nat * W 1%nat 0%nat + W 2%nat 1%nat * W 2%nat 0%nat)
      + s 2%nat * s 2%nat * W k 2%nat * (W 0%nat 2%nat * W 0%nat 0%nat + W 1%nat 2%nat * W 1%nat 0%nat + W 2%nat 2%nat * W 2%nat 0%nat)); [|rewrite C0, C1, C2; ring].
    transitivity ((s 0%nat * s 0%nat * (W k 0%nat * W 0%nat 0%nat) + s 1%nat * s 1%nat * (W k 1%nat * W 0%nat 1%nat) + s 2%nat * s 2%nat * (W k 2%nat * W 0%nat 2%nat)) * W 0%nat 0%nat
      + (s 0%nat * s 0%nat * (W k 0%nat * W 1%nat 0%nat) + s 1%nat * s 1%nat * (W k 1%nat * W 1%nat 1%nat) + s 2%nat * s 2%nat * (W k 2%nat * W 1%nat 2%nat)) * W 1%nat 0%nat
      + (s 0%nat * s 0%nat * (W k 0%nat * W 2%nat 0%nat) + s 1%nat * s 1%nat * (W k 1%nat * W 2%nat 1%nat) + s 2%nat * s 2%nat * (W k 2%nat * W 2%nat 2%nat)) * W 2%nat 0%nat); [|ring].
    rewrite G0, G1, G2. destruct k as [|[|[|k]]]; try lia; cbn [Nat.eqb]; ring. }
  assert (TR : s 0%nat * s 0%nat + s 1%nat * s 1%nat + s 2%nat * s 2%nat = 6).
  { pose proof (GG 0%nat 0%nat ltac:(lia) ltac:(lia)) as G0. pose proof (GG 1%nat 1%nat ltac:(lia) ltac:(lia)) as G1. pose proof (GG 2%nat 2%nat ltac:(lia) ltac:(lia)) as G2.
    pose proof (CC 0%nat 0%nat ltac:(lia) ltac:(lia)) as C0. pose proof (CC 1%nat 1%nat ltac:(lia) ltac:(lia)) as C1. pose proof (CC 2%nat 2%nat ltac:(lia) ltac:(lia)) as C2. cbn [Nat.eqb] in *.
    transitivity (s 0%nat * s 0%nat * (W 0%nat 0%nat * W 0%nat 0%nat + W 1%nat 0%nat * W 1%nat 0%nat + W 2%nat 0%nat * W 2%nat 0%nat) + s 1%nat * s 1%nat * (W 0%nat 1%nat * W 0%nat 1%nat + W 1%nat 1%nat * W 1%nat 1%nat + W 2%nat 1%nat * W 2%nat 1%nat)
      + s 2%nat * s 2%nat * (W 0%nat 2%nat * W 0%nat 2%nat + W 1%nat 2%nat * W 1%nat 2%nat + W 2%nat 2%nat * W 2%nat 2%nat)); [rewrite C0, C1, C2; ring|]. lra. }
  assert (S0 : s 0%nat * s 0%nat <= 1).
  { pose proof (CC 0%nat 0%nat ltac:(lia) ltac:(lia)) as C0. cbn [Nat.eqb] in C0. apply Rmult_integral in Z. destruct Z as [Z|Z]; [rewrite Z; lra|]. rewrite Z in C0.
    pose proof (EV 0%nat ltac:(lia)) as E0. pose proof (EV 1%nat ltac:(lia)) as E1. cbn [Nat.eqb] in E0, E1. apply Req_le.
    transitivity (s 0%nat * s 0%nat * W 0%nat 0%nat * W 0%nat 0%nat + s 0%nat * s 0%nat * W 1%nat 0%nat * W 1%nat 0%nat); [|rewrite <- E0, <- E1; lra].
    transitivity (s 0%nat * s 0%nat * (W 0%nat 0%nat * W 0%nat 0%nat + W 1%nat 0%nat * W 1%nat 0%nat + 0 * 0)); [rewrite C0; ring|ring]. }
  pose proof (Hs 1%nat ltac:(lia)) as P1. pose proof (Hs 2%nat ltac:(lia)) as P2. destruct D as [D1 D2].
  pose proof (Rmult_le_compat _ _ _ _ P1 P1 D2 D2). pose proof (Rmult_le_compat _ _ _ _ P2 P2 D1 D1). lra.
Qed.
End Lifted.
Lemma never_contorted svd q : exists tol, contorted_cell svd tol q = false.
Proof.
  unfold contorted_cell. destruct (Req_EM_T _ 0) as [Z|Z]; [exists 0%R; reflexivity|]. cbv zeta. match goal with |- exists tol, (if Rlt_dec tol ?x then _ else _) = _ => exists x; destruct (Rlt_dec x x) as [L|L]; [exfalso; exact (Rlt_irrefl _ L)|reflexivity] end.
Qed.
Theorem plane_rotation_refuted m svd : mp_void m = false -> (0 < PhysModel.rho0 (PhysModel.prm (mp_par m)))%R -> sorted_svd (PhysModel.get_A (lifted_cell m)) (svd (PhysModel.get_A (lifted_cell m))) ->
  exists tol u u', Forall (plane ex_opt 2) u /\ post ex_opt svd true tol m 10 u = Ok u' /\ ~ Forall (plane ex_opt 2) u'.
Proof.
  intros HM HR HS. destruct (never_contorted svd (UtilsProof.rotated svd (lifted_cell m))) as [tol HT]. exists tol, [lifted_cell m], [UtilsProof.rotated svd (lifted_cell m)]. split; [|split].
  - constructor; [|constructor]. intros k Hk. do 17 (destruct k as [|k]; [first [discriminate Hk|reflexivity]|]). reflexivity.
  - assert (EN : renorm_distortion ex_opt [m] (limit_concentration ex_opt [lifted_cell m]) = Ok [lifted_cell m]).
    { unfold renorm_distortion, limit_concentration, renorm_cell. cbn [MULTI ex_opt each_cell]. change (get_material_index ex_opt (lifted_cell m)) with 0. cbn [UtilsModel.get nth_error bind]. rewrite HM.
      change (lifted_cell m 0) with (2 * PhysModel.rho0 (PhysModel.prm (mp_par m)))%R. destruct (Rlt_dec 0 _) as [_|L]; [|exfalso; apply L; lra]. cbn [has_A V ex_opt Nat.ltb bind].
      replace (det3 (PhysModel.get_A (lifted_cell m))) with 2%R by (unfold det3, PhysModel.get_A, lifted_cell; cbn; ring).
      replace (2 * PhysModel.rho0 (PhysModel.prm (mp_par m)) / (PhysModel.rho0 (PhysModel.prm (mp_par m)) * 2))%R with 1%R by (field; lra). rewrite cbrt_1. unfold has_A. change (V ex_opt <? 14) with false. cbn [bind].
      do 2 f_equal. apply functional_extensionality. intros k. unfold PhysModel.setseg. destruct (Nat.leb_spec 5 k) as [G|G]; cbn [andb]; [|reflexivity]. destruct (k <? 5 + 9); [|reflexivity]. replace (5 + (k - 5)) with k by lia. apply Rmult_1_r. }
    unfold post, corrected. rewrite EN. cbn [bind]. change (10 mod 10 =? 0) with true. cbn [andb].
    assert (ER : rotate_distortion ex_opt svd [m] [lifted_cell m] = Ok [UtilsProof.rotated svd (lifted_cell m)]).
    { unfold rotate_distortion. cbn [each_cell]. rewrite (UtilsProof.rotate_cell_ok ex_opt svd [m] eq_refl 0 (lifted_cell m) m eq_refl), HM. reflexivity. }
    rewrite ER. cbn [bind]. unfold contorted. change (V ex_opt <? 14) with false. cbn [existsb bind]. rewrite HT. reflexivity.
  - intros F. inversion F as [|x l Hx _]; subst. apply (lifted_first m svd HS). apply Hx. reflexivity.
Qed.
(** a decomposition as asked for, and the gas of the examples *)
Example plane_rotation_case : sorted_svd (PhysModel.get_A (lifted_cell MirrorProps.ex_gas)) ((fun i => if i =? 0 then 2%R else 1%R), fun i j => if i =? (j + 2) mod 3 then 1%R else 0%R) /\
  mp_void MirrorProps.ex_gas = false /\ (0 < PhysModel.rho0 (PhysModel.prm (mp_par MirrorProps.ex_gas)))%R.
Proof.
  split; [|split; [reflexivity|cbn; lra]]. split; [|cbn; unfold RelaxSpec.descending; cbn; lra]. cbn [fst snd].
  assert (O : PhysSpec.orthogonal (fun i j => if i =? (j + 2) mod 3 then 1%R else 0%R)).
  { split; intros i j Hi Hj; destruct i as [|[|[|i]]]; try lia; destruct j as [|[|[|j]]]; try lia; unfold mmul, mtr, sum3, id3, delta; cbn; ring. }
  split; [intros i _; destruct (i =? 0); lra|]. split; [exact O|]. exists (fun i j => if i =? (j + 2) mod 3 then 1%R else 0%R). split; [exact O|].
  intros i j Hi Hj. destruct i as [|[|[|i]]]; try lia; destruct j as [|[|[|j]]]; try lia; unfold mmul, mtr, sum3, UtilsProof.diag3, PhysModel.get_A, lifted_cell; cbn; ring.
Qed.
Print Assumptions step_plane_partial.
Print Assumptions run_plane_partial.
Print Assumptions code_plane_setup.
Print Assumptions right_solver_plane.
Print Assumptions code_matrix_level.
Print Assumptions plane_rotation_refuted.
