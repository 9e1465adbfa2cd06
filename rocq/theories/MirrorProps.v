(** C94: a mirrored run is the mirror image of the run. C95: a symmetric wall stands for the mirrored half of the domain. *)
From Coq Require Import Reals Lia Lra ZArith FunctionalExtensionality.
From Verif Require Import Base Options Sum Mat3 EqModel EqSpec FvModel FvBody FvSpec FvProof FvProps PolyModel WenoModel WenoSpec WenoProof WenoProps DgModel DgSpec DgProof2 DgProps GridModel GridSpec GridProof GridProps StepperModel AderModel AderProof3 AderProof4
  AderProps Ader2Props Ader3Props HomogModel SplitProps PhysModel UtilsModel UtilsProof UtilsProps IterModel IterSpec IterProof2 IterProps Split3Props SafeProof RunModel RunProof RunProof2 RunProps RunProof3 RunProof4 Run2Props
  MRunModel MRunProof RefSpec RefProof RefProof2 RefProof3 RefProof4 RefProof5 RefProps MirrorSpec MirrorProof MirrorProof2 MirrorProof3 MirrorProof4 MirrorProof5 MirrorProof6.
From Verif Require Import LegendreModel WenoProof2.
From Verif Require MRunProps LegendreProps PhysProps PhysInst.
Import List ListNotations.
Open Scope nat_scope.

(** cell c of a line of n cells, seen in the mirror *)
Definition flipped (n c : nat) : nat := n - 1 - c.
Lemma flipped_field o (u : grid) : image (mirror o) (flipped (length u)) u = map (mirror o) (rev u).
Proof.
  apply nth_ext with (d := mirror o (fun _ => 0%R)) (d' := mirror o (fun _ => 0%R)); [rewrite image_length, map_length, rev_length; reflexivity|]. rewrite image_length. intros c Hc.
  rewrite image_nth by exact Hc. rewrite (map_nth (mirror o)). f_equal. rewrite rev_nth by exact Hc. unfold flipped. f_equal. lia.
Qed.

Section Step.
Variable o : options.
Variables (nodes : list R) (bs : list poly) (WGHTS : nat -> R).
Variables (SIG : nat -> nat -> R) (LAMS LAMC EPS : R) (inv : stencil -> (nat -> R) -> nat -> R).
Variable wallf : nat -> nat -> num -> num.
Variable ph : matpar -> phys.
Variable prim : matpar -> option ((num -> num) * (num -> num)).
Variable Phi : matpar -> R -> nat -> list num -> res (option (nat -> option nodal)).
Variable valid : matpar -> nodal -> bool.
Variable ode : matpar -> R -> num -> num.
Variables (SPLIT HALF_STEP : bool) (FLUX : nat) (dX : list R).
Notation NODES := (fun i => nth i nodes 0%R).
Notation ENDVALS := (end_values bs).
Notation DERVALS := (Dv bs nodes).
Notation team_type := (matpar -> grid -> list bool -> R -> nat * list nat).
Notation conf nX bt team := (configured o Phi SPLIT FLUX nX bt dX team).
Notation fin nX bt team := (finishing o NODES WGHTS ENDVALS DERVALS SIG LAMS LAMC EPS inv wallf ph prim Phi valid ode SPLIT HALF_STEP FLUX nX bt dX team).
Notation numeric nX bt m := (numeric o SIG LAMS LAMC EPS inv wallf prim Phi valid ode SPLIT HALF_STEP nX bt m nodes bs).
Notation ready nX bt m := (ready o SIG LAMS LAMC EPS inv wallf prim nX bt m nodes bs).
Notation met nX bt m := (met o NODES WGHTS ENDVALS DERVALS SIG LAMS LAMC EPS inv wallf ph prim Phi valid ode SPLIT HALF_STEP FLUX nX bt dX m).
Notation advance nX bt team := (run_advance o NODES WGHTS ENDVALS DERVALS SIG LAMS LAMC EPS inv wallf ph prim Phi valid ode SPLIT HALF_STEP FLUX nX bt dX team).
Notation stepped nX bt := (stepped o NODES WGHTS ENDVALS DERVALS SIG LAMS LAMC EPS inv wallf ph prim Phi ode SPLIT HALF_STEP FLUX nX bt dX).
Notation T := (mirror o).

(** the nodes lie symmetrically in the cell, and the tables are those of C24, C26, C28 and C31 for them *)
Definition tables : Prop :=
  dg_basis nodes bs WGHTS /\ (forall i, i < N o -> nth (N o - 1 - i) nodes 0%R = (1 - nth i nodes 0)%R) /\
  forall i j, i < N o -> j < N o -> SIG (N o - 1 - i) (N o - 1 - j) = SIG i j.
(** nothing about the material m or the walls of the types in use prefers one end of the line *)
Definition handless (m : matpar) (types : list nat) : Prop :=
  mirrors o (ph m) FLUX /\ (forall p c, prim m = Some (p, c) -> keeps o p /\ keeps o c) /\ (forall ty, In ty types -> keeps o (wallf ty 0)) /\
  if SPLIT then forall h, keeps o (ode m h)
  else forall dt q q' t, t < N o -> mirrored o q q' -> mirrored o (predicted o (Phi m dt) 1 q t) (predicted o (Phi m dt) 1 q' t).
Hypothesis HM : MULTI o = false.
Hypothesis HV : VISCOUS o = true.
Hypothesis HT : tables.

Lemma new_flipped nx bt bt' m : 1 <= N o <= nx -> ready [nx] bt m -> bt' 0 = bt 1 -> bt' 1 = bt 0 -> handless m [bt 0; bt 1] ->
  forall dx x x' k k' dt c, (forall c, c < nx -> x' c = T (x (nx - 1 - c))) -> (forall c, c < nx -> k' c = k (nx - 1 - c)) -> c < nx ->
  new1 o NODES WGHTS ENDVALS DERVALS SIG LAMS LAMC EPS inv wallf (ph m) (prim m) (Phi m dt) (ode m (dt / 2)%R) SPLIT HALF_STEP FLUX bt' dt nx dx x' k' c =
  T (new1 o NODES WGHTS ENDVALS DERVALS SIG LAMS LAMC EPS inv wallf (ph m) (prim m) (Phi m dt) (ode m (dt / 2)%R) SPLIT HALF_STEP FLUX bt dt nx dx x k (nx - 1 - c)).
Proof using HM HV HT.
  intros Hn (Ln & HW & _) B0 B1 (HP & Hpr & Hw & Ho) dx x x' k k' dt c Hx Hk Hc. destruct HT as (G & HS & HG). pose proof G as (D0 & B & _). rewrite <- Ln in HS, HG.
  apply new_mirror; try assumption.
  - rewrite <- Ln. exact HS.
  - rewrite <- Ln. intros i Hi. apply (weights_mirror nodes bs D0 B HS); assumption.
  - rewrite <- Ln. intros e j He Hj. apply (ends_mirror nodes bs D0 B HS); assumption.
  - rewrite <- Ln. intros i j Hi Hj. apply (der_mirror nodes bs D0 B HS); assumption.
  - rewrite <- Ln. intros s w w' i Hs Hw' Hi. apply (reconstruct_mirror nodes bs D0 B HS inv SIG LAMS LAMC EPS HW HG s w w' Hs Hw' i Hi).
  - intros E. rewrite E in Ho. apply Ho.
  - intros E. rewrite E in Ho. apply Ho.
  - intros ty [-> | ->]; apply Hw; cbn; auto.
  - split; assumption.
Qed.

(** C94. A step of the mirrored state, with the walls exchanged, is the mirrored step. The teams may differ. *)
Theorem step_mirrors_met_1d nx bt bt' (team team' : team_type) m g dt : conf [nx] bt team -> fin [nx] bt team -> conf [nx] bt' team' -> fin [nx] bt' team' -> ready [nx] bt m -> ready [nx] bt' m ->
  met [nx] bt m g (repeat true nx) dt -> met [nx] bt' m (image T (flipped nx) g) (repeat true nx) dt ->
  bt' 0 = bt 1 -> bt' 1 = bt 0 -> handless m [bt 0; bt 1] -> length g = nx ->
  exists h, advance [nx] bt team m g (repeat true nx) dt = Ok h /\ length h = nx /\ advance [nx] bt' team' m (image T (flipped nx) g) (repeat true nx) dt = Ok (image T (flipped nx) h).
Proof using HM HV HT.
  intros HC HF HC' HF' HNu HNu' HMt HMt' B0 B1 HH Lg. exists (stepped [nx] bt m g (repeat true nx) dt). split; [|split].
  - apply step_computes_met with (nodes := nodes) (bs := bs); cbn [length fold_right]; rewrite ?Nat.mul_1_r, ?repeat_length; try assumption; auto; discriminate.
  - rewrite stepped_length with (team := team) by exact HC. cbn. lia.
  - pose proof HC as [_ [(nx' & E & Hn)|(x & y & E & _)] _ _ _]; [|discriminate]. injection E as <-.
    rewrite step_computes_met with (nodes := nodes) (bs := bs); cbn [length fold_right]; rewrite ?Nat.mul_1_r, ?repeat_length, ?image_length; try assumption; auto; try discriminate.
    f_equal. unfold RefProps.stepped. rewrite image_map_seq by (unfold flipped; intros; lia). apply map_ext_in. intros c Hc. apply in_seq in Hc.
    apply new_flipped; try assumption; try lia.
    + intros a Ha. rewrite image_nth by lia. reflexivity.
    + intros a Ha. rewrite !nth_true. destruct (Nat.ltb_spec a nx), (Nat.ltb_spec (nx - 1 - a) nx); try reflexivity; lia.
Qed.
(** in particular when the functions give numbers on all numbers *)
Theorem step_mirrors_1d nx bt bt' (team team' : team_type) m g dt : conf [nx] bt team -> fin [nx] bt team -> conf [nx] bt' team' -> fin [nx] bt' team' -> numeric [nx] bt m -> numeric [nx] bt' m ->
  bt' 0 = bt 1 -> bt' 1 = bt 0 -> handless m [bt 0; bt 1] -> length g = nx ->
  exists h, advance [nx] bt team m g (repeat true nx) dt = Ok h /\ length h = nx /\ advance [nx] bt' team' m (image T (flipped nx) g) (repeat true nx) dt = Ok (image T (flipped nx) h).
Proof using HM HV HT.
  intros HC HF HC' HF' HNu HNu'. pose proof (fun g => numeric_met _ NODES WGHTS ENDVALS DERVALS _ _ _ _ _ _ ph _ _ _ _ _ _ FLUX _ _ dX team HC nodes bs m g (repeat true nx) dt HNu) as X. pose proof (fun g => numeric_met _ NODES WGHTS ENDVALS DERVALS _ _ _ _ _ _ ph _ _ _ _ _ _ FLUX _ _ dX team' HC' nodes bs m g (repeat true nx) dt HNu') as X'.
  intros. apply step_mirrors_met_1d; try assumption; solve [apply (X []) | apply (X' []) | apply X | apply X'].
Qed.

Section Run.
Variable svd : mat3 -> vec3 * mat3.
Variable speed : vec -> nat -> matpar -> option R.
Variables fill fill' : list grid -> list (list bool) -> grid -> R -> res (grid * list grid * list (list bool)).
Variable nan : grid -> bool.
Variables (CFL tf tol : R) (m : matpar).
(** a state that the run from u hands to a step of the solver, with the length of the step *)
Notation handed nX bt team u := (handed o svd speed fill (advance nX bt team) nan false dX CFL tf tol m (init [m] u)).
Notation prog nX bt team fill := (program o NODES WGHTS ENDVALS DERVALS SIG LAMS LAMC EPS inv wallf ph prim Phi valid ode SPLIT HALF_STEP FLUX nX bt dX team svd speed fill nan false CFL tf tol [m]).
Hypothesis HL : LSET o = 0.
Hypothesis HMv : mp_void m = false.
(** wave speeds and singular values do not depend on handedness *)
Definition handless_oracles : Prop := (forall q, speed (T q) 0 m = speed q 0 m) /\ forall q, fst (svd (get_A (T q))) = fst (svd (get_A q)).
Hypothesis HO : handless_oracles.

Lemma det_mirror q : det3 (get_A (T q)) = det3 (get_A q).
Proof using. unfold det3, get_A, mirror, sign. cbn [Nat.add Nat.mul]. ring. Qed.
Lemma devGsq_mirror q : devGsq (get_A (T q)) = devGsq (get_A q).
Proof using. unfold devGsq, dot3, sum3, get_A, mirror, sign. cbn [Nat.add Nat.mul]. field. Qed.
Lemma setseg_mirror q f g : (forall i, i < 9 -> f i = (sign o (5 + i) * g i)%R) -> setseg (T q) 5 9 f = T (setseg q 5 9 g).
Proof using.
  clear HL. intros H. apply functional_extensionality. intros k. unfold setseg. unfold mirror at 2. destruct (Nat.leb_spec 5 k); cbn [andb]; [|reflexivity]. destruct (Nat.ltb_spec k (5 + 9)); [|reflexivity].
  rewrite H by lia. do 2 f_equal. lia.
Qed.
Lemma set1_mirror q i x : sign o i = 1%R -> set1 (T q) i x = T (set1 q i x).
Proof using.
  clear HL. intros H. apply functional_extensionality. intros k. unfold set1. unfold mirror at 2. destruct (Nat.eqb_spec k i) as [->|]; [rewrite H; ring|reflexivity].
Qed.
Lemma cells_mirror : RefProof5.commutes T (renorm_cell o [m]) /\ RefProof5.commutes T (reset_cell o [m]).
Proof using HL HMv HV.
  destruct (one_cell o (fun A => (fun _ => 0%R, A)) m HL HMv HV) as (_ & (F & HF & _) & _ & (F' & HF' & _)). pose proof (V14 o HV) as V.
  assert (G : forall q, UtilsModel.get [m] (get_material_index o q) = Ok m).
  { intros q. pose proof (material_bound o q) as X. rewrite HL in X. replace (get_material_index o q) with 0 by lia. reflexivity. }
  assert (A : forall q, has_A o q = q) by (intros q; unfold has_A; destruct (Nat.ltb_spec (Options.V o) 14); [lia|reflexivity]).
  split.
  - exists F. split; [exact HF|]. intros q. apply Ok_inj. rewrite <- (HF 0 (T q)). pose proof (HF 0 q) as E. revert E. unfold renorm_cell. rewrite !G. cbn [bind]. rewrite HMv.
    change (T q 0%nat) with (1 * q 0%nat)%R. rewrite Rmult_1_l. destruct (Rlt_dec 0 (q 0%nat)).
    + rewrite !A. intros E. apply Ok_inj in E. rewrite <- E, det_mirror. f_equal. apply setseg_mirror. intros i Hi. unfold mirror. ring.
    + intros E. apply Ok_inj in E. rewrite <- E. reflexivity.
  - exists F'. split; [exact HF'|]. intros q. apply Ok_inj. rewrite <- (HF' 0 (T q)). pose proof (HF' 0 q) as E. revert E. unfold reset_cell. rewrite !G. cbn [bind]. rewrite HMv, !A.
    intros E. apply Ok_inj in E. rewrite <- E. f_equal. cbv zeta. unfold E_2A. rewrite devGsq_mirror.
    change (T q 0%nat) with (1 * q 0%nat)%R. change (T q 1%nat) with (1 * q 1%nat)%R. rewrite !Rmult_1_l.
    rewrite set1_mirror by reflexivity. rewrite (setseg_mirror _ _ (fun _ => 0%R)) by (intros; ring). rewrite !set1_mirror by reflexivity. reflexivity.
Qed.
Lemma contorted_mirror q : contorted_cell svd tol (T q) = contorted_cell svd tol q.
Proof using HO. destruct HO as [_ H]. unfold contorted_cell. rewrite H. reflexivity. Qed.
Lemma rate_mirror q : length dX = 1 -> rate speed dX (T q) m = rate speed dX q m.
Proof using HO. destruct HO as [H _]. intros L. destruct dX as [|dx [|]]; try discriminate. unfold rate. cbn [rate_from]. rewrite H. reflexivity. Qed.
Lemma flipped_permutes n : permutes n (flipped n).
Proof using. clear HL. split; unfold flipped; [intros; lia|]. intros c Hc. exists (n - 1 - c). lia. Qed.

(** ... and the run of the mirrored initial condition is the mirror image of the run: same times, same number of turns, every snapshot mirrored *)
Theorem run_mirrors_met_1d nx bt bt' (team team' : team_type) fuel (u : grid) : conf [nx] bt team -> fin [nx] bt team -> conf [nx] bt' team' -> fin [nx] bt' team' -> ready [nx] bt m -> ready [nx] bt' m ->
  (forall g dt, handed [nx] bt team u g dt -> met [nx] bt m g (repeat true nx) dt /\ met [nx] bt' m (image T (flipped nx) g) (repeat true nx) dt) -> length dX = 1 ->
  bt' 0 = bt 1 -> bt' 1 = bt 0 -> handless m [bt 0; bt 1] -> (forall g, length g = nx -> nan (image T (flipped nx) g) = nan g) -> length u = nx ->
  prog [nx] bt' team' fill' fuel (image T (flipped nx) u) = image_run T (flipped nx) (prog [nx] bt team fill fuel u).
Proof using HL HMv HO HM HV HT.
  intros HC HF HC' HF' HNu HNu' HMt LX B0 B1 HH Hnan Lu. destruct cells_mirror as [C1 C2]. unfold program. apply iterator_image with (n := nx) (Good := fun g dt => met [nx] bt m g (repeat true nx) dt /\ met [nx] bt' m (image T (flipped nx) g) (repeat true nx) dt); try assumption; try reflexivity; auto.
  - apply flipped_permutes.
  - intros g dt Lg [G1 G2]. apply step_mirrors_met_1d; assumption.
  - intros q. apply rate_mirror, LX.
  - intros E. rewrite HM in E. discriminate.
  - discriminate.
  - intros q. apply contorted_mirror.
Qed.
(** in particular when the functions give numbers on all numbers *)
Theorem run_mirrors_1d nx bt bt' (team team' : team_type) fuel (u : grid) : conf [nx] bt team -> fin [nx] bt team -> conf [nx] bt' team' -> fin [nx] bt' team' -> numeric [nx] bt m -> numeric [nx] bt' m -> length dX = 1 ->
  bt' 0 = bt 1 -> bt' 1 = bt 0 -> handless m [bt 0; bt 1] -> (forall g, length g = nx -> nan (image T (flipped nx) g) = nan g) -> length u = nx ->
  prog [nx] bt' team' fill' fuel (image T (flipped nx) u) = image_run T (flipped nx) (prog [nx] bt team fill fuel u).
Proof using HL HMv HO HM HV HT.
  intros HC HF HC' HF' HNu HNu'. pose proof (fun g dt => numeric_met _ NODES WGHTS ENDVALS DERVALS _ _ _ _ _ _ ph _ _ _ _ _ _ FLUX _ _ dX team HC nodes bs m g (repeat true nx) dt HNu) as X. pose proof (fun g dt => numeric_met _ NODES WGHTS ENDVALS DERVALS _ _ _ _ _ _ ph _ _ _ _ _ _ FLUX _ _ dX team' HC' nodes bs m g (repeat true nx) dt HNu') as X'.
  intros. apply run_mirrors_met_1d; try assumption; [apply (X [] 0%R)|apply (X' [] 0%R)|]. intros g dt _. split; [apply X|apply X'].
Qed.

(** C95. The whole line: the mirror image of the half line, then the half line *)
Definition whole_cell (n c : nat) : nat := if Nat.ltb c n then n - 1 - c else c - n.
Definition whole_side (n c : nat) (q : vec) : vec := if Nat.ltb c n then T q else q.
Lemma whole_field (u : grid) : copies (length u + length u) (whole_side (length u)) (whole_cell (length u)) u = map T (rev u) ++ u.
Proof using.
  clear HL. apply nth_ext with (d := fun _ => 0%R) (d' := fun _ => 0%R); [rewrite copies_length, app_length, map_length, rev_length; reflexivity|]. rewrite copies_length. intros c Hc.
  rewrite copies_nth by exact Hc. unfold whole_side, whole_cell. destruct (Nat.ltb_spec c (length u)).
  - rewrite app_nth1 by (rewrite map_length, rev_length; assumption). rewrite (nth_indep (map T (rev u)) (fun _ => 0%R) (T (fun _ => 0%R))) by (rewrite map_length, rev_length; assumption). rewrite map_nth, rev_nth by assumption. do 2 f_equal. lia.
  - rewrite app_nth2 by (rewrite map_length, rev_length; assumption). rewrite map_length, rev_length. reflexivity.
Qed.
(** the left wall shows every cell its mirror image, and the right end is not joined to it *)
Definition mirror_wall (bt : nat -> nat) : Prop := 2 <= bt 0 /\ (forall q, at_numbers (wallf (bt 0) 0) q = T q) /\ bt 1 <> 1.

Lemma new_whole nx bt m' : 1 <= N o <= nx -> ready [nx + nx] (fun _ => bt 1) m' -> handless m' [bt 1] -> mirror_wall bt ->
  forall dx (g : grid) dt c, length g = nx -> c < nx + nx ->
  let w := copies (nx + nx) (whole_side nx) (whole_cell nx) g in
  new1 o NODES WGHTS ENDVALS DERVALS SIG LAMS LAMC EPS inv wallf (ph m') (prim m') (Phi m' dt) (ode m' (dt / 2)%R) SPLIT HALF_STEP FLUX (fun _ => bt 1) dt (nx + nx) dx (fun c => nth c w (fun _ => 0%R)) (fun c => nth c (repeat true (nx + nx)) false) c =
  whole_side nx c (new1 o NODES WGHTS ENDVALS DERVALS SIG LAMS LAMC EPS inv wallf (ph m') (prim m') (Phi m' dt) (ode m' (dt / 2)%R) SPLIT HALF_STEP FLUX bt dt nx dx (fun c => nth c g (fun _ => 0%R)) (fun c => nth c (repeat true nx) false) (whole_cell nx c)).
Proof using HM HV HT.
  clear HL. intros Hn HNu HH (W0 & W & W1) dx g dt c Lg Hc w.
  assert (R : forall c, nx <= c < nx + nx -> 
    new1 o NODES WGHTS ENDVALS DERVALS SIG LAMS LAMC EPS inv wallf (ph m') (prim m') (Phi m' dt) (ode m' (dt / 2)%R) SPLIT HALF_STEP FLUX (fun _ => bt 1) dt (nx + nx) dx (fun c => nth c w (fun _ => 0%R)) (fun c => nth c (repeat true (nx + nx)) false) c =
    new1 o NODES WGHTS ENDVALS DERVALS SIG LAMS LAMC EPS inv wallf (ph m') (prim m') (Phi m' dt) (ode m' (dt / 2)%R) SPLIT HALF_STEP FLUX bt dt nx dx (fun c => nth c g (fun _ => 0%R)) (fun c => nth c (repeat true nx) false) (c - nx)).
  { clear c Hc. intros c Hc. pose proof HNu as (Ln & HW & _).
    assert (X : forall y, (0 <= y < Z.of_nat nx)%Z -> nth (Z.to_nat (y + Z.of_nat nx)) w (fun _ => 0%R) = nth (Z.to_nat y) g (fun _ => 0%R)).
    { intros y Hy. unfold w. rewrite copies_nth by lia. unfold whole_side, whole_cell. destruct (Nat.ltb_spec (Z.to_nat (y + Z.of_nat nx)) nx); [lia|]. f_equal. lia. }
    symmetry. apply (new1_rel o nodes bs); try assumption.
    - intros d Hd. replace (Z.of_nat c + d)%Z with ((Z.of_nat (c - nx) + d) + Z.of_nat nx)%Z by lia. set (z := (Z.of_nat (c - nx) + d)%Z). assert (Hz : (- Z.of_nat nx <= z < 2 * Z.of_nat nx)%Z) by lia. unfold extended1, extend1. cbv beta.
      destruct (Z.ltb_spec (z + Z.of_nat nx) 0); [lia|]. destruct (Z.ltb_spec z 0).
      + destruct (Z.ltb_spec (z + Z.of_nat nx) (Z.of_nat (nx + nx))); [|lia]. cbn [val]. unfold ghost. destruct (bt 0) as [|[|b]] eqn:Eb; [lia|lia|].
        transitivity (at_numbers (wallf (S (S b)) 0) (nth (Z.to_nat (-1 - z)) g (fun _ => 0%R))); [reflexivity|rewrite W]. unfold w. rewrite copies_nth by lia. unfold whole_side, whole_cell. destruct (Nat.ltb_spec (Z.to_nat (z + Z.of_nat nx)) nx); [|lia]. do 2 f_equal. lia.
      + destruct (Z.ltb_spec z (Z.of_nat nx)).
        * destruct (Z.ltb_spec (z + Z.of_nat nx) (Z.of_nat (nx + nx))); [|lia]. cbn [val]. rewrite X by lia. reflexivity.
        * destruct (Z.ltb_spec (z + Z.of_nat nx) (Z.of_nat (nx + nx))); [lia|]. unfold ghost. destruct (bt 1) as [|[|b]]; [|lia|].
          -- cbn [val]. replace (Z.of_nat (nx + nx) - 1)%Z with ((Z.of_nat nx - 1) + Z.of_nat nx)%Z by lia. rewrite X by lia. reflexivity.
          -- replace (2 * Z.of_nat (nx + nx) - 1 - (z + Z.of_nat nx))%Z with ((2 * Z.of_nat nx - 1 - z) + Z.of_nat nx)%Z by lia. rewrite X by lia. reflexivity.
    - intros d Hd. rewrite !spread1_full; try reflexivity; try lia; intros i Hi; rewrite nth_true; apply Nat.ltb_lt, Hi.
    - pose proof (X (Z.of_nat (c - nx)) ltac:(lia)) as Y. rewrite Nat2Z.id in Y. rewrite <- Y. f_equal. lia. }
  destruct (Nat.ltb_spec c nx) as [L|L].
  - rewrite (new_flipped (nx + nx) (fun _ => bt 1) (fun _ => bt 1) m' ltac:(lia) HNu eq_refl eq_refl) with (x := fun c => nth c w (fun _ => 0%R)) (k := fun c => nth c (repeat true (nx + nx)) false); try assumption.
    + unfold whole_side, whole_cell. destruct (Nat.ltb_spec c nx); [|lia]. f_equal. rewrite R by lia. f_equal. lia.
    + destruct HH as (A & B & C & D). split; [exact A|]. split; [exact B|]. split; [|exact D]. intros ty [<-|[<-|[]]]; apply C; left; reflexivity.
    + intros a Ha. unfold w. rewrite !copies_nth by lia. unfold whole_side, whole_cell. destruct (Nat.ltb_spec a nx), (Nat.ltb_spec (nx + nx - 1 - a) nx); try lia.
      * do 2 f_equal. lia.
      * rewrite mirror_mirror. f_equal. lia.
    + intros a Ha. rewrite !nth_true. destruct (Nat.ltb_spec a (nx + nx)), (Nat.ltb_spec (nx + nx - 1 - a) (nx + nx)); try reflexivity; lia.
  - rewrite R by lia. unfold whole_side, whole_cell. destruct (Nat.ltb_spec c nx); [lia|reflexivity].
Qed.
Theorem step_at_wall_met nx bt (team team' : team_type) m' (g : grid) dt : conf [nx] bt team -> fin [nx] bt team -> conf [nx + nx] (fun _ => bt 1) team' -> fin [nx + nx] (fun _ => bt 1) team' ->
  ready [nx] bt m' -> ready [nx + nx] (fun _ => bt 1) m' -> met [nx] bt m' g (repeat true nx) dt -> met [nx + nx] (fun _ => bt 1) m' (map T (rev g) ++ g) (repeat true (nx + nx)) dt -> handless m' [bt 1] -> mirror_wall bt -> length g = nx ->
  exists h, advance [nx] bt team m' g (repeat true nx) dt = Ok h /\ length h = nx /\ advance [nx + nx] (fun _ => bt 1) team' m' (map T (rev g) ++ g) (repeat true (nx + nx)) dt = Ok (map T (rev h) ++ h).
Proof using HM HV HT.
  clear HL. intros HC HF HC' HF' HNu HNu' HMt HMt' HH HW Lg. exists (stepped [nx] bt m' g (repeat true nx) dt).
  assert (L1 : length (stepped [nx] bt m' g (repeat true nx) dt) = nx) by (rewrite stepped_length with (team := team) by exact HC; cbn; lia). split; [|split; [exact L1|]].
  - apply step_computes_met with (nodes := nodes) (bs := bs); cbn [length fold_right]; rewrite ?Nat.mul_1_r, ?repeat_length; try assumption; auto; discriminate.
  - pose proof HC as [_ [(nx' & E & Hn)|(x & y & E & _)] _ _ _]; [|discriminate]. injection E as <-.
    rewrite <- !whole_field. rewrite <- whole_field, Lg in HMt'. rewrite L1, Lg.
    rewrite step_computes_met with (nodes := nodes) (bs := bs); cbn [length fold_right]; rewrite ?Nat.mul_1_r, ?repeat_length, ?copies_length; try assumption; auto; try discriminate.
    f_equal. unfold RefProps.stepped at 1. unfold copies at 2. apply map_ext_in. intros c Hc. apply in_seq in Hc. unfold RefProps.stepped.
    rewrite nth_map_seq by (unfold whole_cell; destruct (Nat.ltb_spec c nx); lia). apply new_whole; try assumption; lia.
Qed.
(** in particular when the functions give numbers on all numbers *)
Theorem step_at_wall nx bt (team team' : team_type) m' (g : grid) dt : conf [nx] bt team -> fin [nx] bt team -> conf [nx + nx] (fun _ => bt 1) team' -> fin [nx + nx] (fun _ => bt 1) team' ->
  numeric [nx] bt m' -> numeric [nx + nx] (fun _ => bt 1) m' -> handless m' [bt 1] -> mirror_wall bt -> length g = nx ->
  exists h, advance [nx] bt team m' g (repeat true nx) dt = Ok h /\ length h = nx /\ advance [nx + nx] (fun _ => bt 1) team' m' (map T (rev g) ++ g) (repeat true (nx + nx)) dt = Ok (map T (rev h) ++ h).
Proof using HM HV HT.
  clear HL. intros HC HF HC' HF' HNu HNu'. pose proof (fun g => numeric_met _ NODES WGHTS ENDVALS DERVALS _ _ _ _ _ _ ph _ _ _ _ _ _ FLUX _ _ dX team HC nodes bs m' g (repeat true nx) dt HNu) as X. pose proof (fun g => numeric_met _ NODES WGHTS ENDVALS DERVALS _ _ _ _ _ _ ph _ _ _ _ _ _ FLUX _ _ dX team' HC' nodes bs m' g (repeat true (nx + nx)) dt HNu') as X'.
  intros. apply step_at_wall_met; try assumption; solve [apply (X []) | apply (X' []) | apply X | apply X'].
Qed.
Lemma whole_covers n : covers n (n + n) (whole_cell n).
Proof using. clear HL. unfold whole_cell. split; intros c Hc; [destruct (Nat.ltb_spec c n); lia|]. exists (n + c). split; [lia|]. destruct (Nat.ltb_spec (n + c) n); lia. Qed.
(** ... and the run of the whole line is that of the half line and its mirror image, at every turn and in every snapshot *)
Theorem run_at_wall_met nx bt (team team' : team_type) fuel (u : grid) : conf [nx] bt team -> fin [nx] bt team -> conf [nx + nx] (fun _ => bt 1) team' -> fin [nx + nx] (fun _ => bt 1) team' ->
  ready [nx] bt m -> ready [nx + nx] (fun _ => bt 1) m ->
  (forall g dt, handed [nx] bt team u g dt -> met [nx] bt m g (repeat true nx) dt /\ met [nx + nx] (fun _ => bt 1) m (map T (rev g) ++ g) (repeat true (nx + nx)) dt) -> length dX = 1 -> handless m [bt 1] -> mirror_wall bt -> (forall g, length g = nx -> nan (map T (rev g) ++ g) = nan g) -> length u = nx ->
  prog [nx + nx] (fun _ => bt 1) team' fill' fuel (map T (rev u) ++ u) = copies_run (whole_side nx) (whole_cell nx) (nx + nx) (prog [nx] bt team fill fuel u).
Proof using HL HMv HO HM HV HT.
  intros HC HF HC' HF' HNu HNu' HMt LX HH HW Hnan Lu. destruct cells_mirror as [(F1 & E1 & C1) (F2 & E2 & C2)]. rewrite <- whole_field, Lu. unfold program. apply iterator_copies with (n := nx) (Good := fun g dt => met [nx] bt m g (repeat true nx) dt /\ met [nx + nx] (fun _ => bt 1) m (map T (rev g) ++ g) (repeat true (nx + nx)) dt); try assumption.
  - apply whole_covers.
  - intros g dt Lg [G1 G2]. destruct (step_at_wall_met nx bt team team' m g dt HC HF HC' HF' HNu HNu' G1 G2 HH HW Lg) as (h & A & L & B). exists h. split; [exact A|]. split; [exact L|]. rewrite <- !whole_field, L, Lg in B. exact B.
  - intros c q. unfold whole_side. destruct (Nat.ltb c nx); [apply rate_mirror, LX|reflexivity].
  - intros E. rewrite HM in E. discriminate.
  - exists F1. split; [exact E1|]. intros c q. unfold whole_side. destruct (Nat.ltb c nx); [apply C1|reflexivity].
  - discriminate.
  - exists F2. split; [exact E2|]. intros c q. unfold whole_side. destruct (Nat.ltb c nx); [apply C2|reflexivity].
  - intros c q. unfold whole_side. destruct (Nat.ltb c nx); [apply contorted_mirror|reflexivity].
  - intros g Lg. rewrite <- Lg, whole_field. apply Hnan, Lg.
Qed.
(** in particular when the functions give numbers on all numbers *)
Theorem run_at_wall nx bt (team team' : team_type) fuel (u : grid) : conf [nx] bt team -> fin [nx] bt team -> conf [nx + nx] (fun _ => bt 1) team' -> fin [nx + nx] (fun _ => bt 1) team' ->
  numeric [nx] bt m -> numeric [nx + nx] (fun _ => bt 1) m -> length dX = 1 -> handless m [bt 1] -> mirror_wall bt -> (forall g, length g = nx -> nan (map T (rev g) ++ g) = nan g) -> length u = nx ->
  prog [nx + nx] (fun _ => bt 1) team' fill' fuel (map T (rev u) ++ u) = copies_run (whole_side nx) (whole_cell nx) (nx + nx) (prog [nx] bt team fill fuel u).
Proof using HL HMv HO HM HV HT.
  intros HC HF HC' HF' HNu HNu'. pose proof (fun g dt => numeric_met _ NODES WGHTS ENDVALS DERVALS _ _ _ _ _ _ ph _ _ _ _ _ _ FLUX _ _ dX team HC nodes bs m g (repeat true nx) dt HNu) as X. pose proof (fun g dt => numeric_met _ NODES WGHTS ENDVALS DERVALS _ _ _ _ _ _ ph _ _ _ _ _ _ FLUX _ _ dX team' HC' nodes bs m g (repeat true (nx + nx)) dt HNu') as X'.
  intros. apply run_at_wall_met; try assumption; [apply (X [] 0%R)|apply (X' [] 0%R)|]. intros g dt _. split; [apply X|apply X'].
Qed.
End Run.
End Step.

(** ** The ADER predictor *)
(** With the unsplit solver nothing has to be assumed about the space-time predictor: the one of dg1.cpp, with Picard iterations, an exact solver of its linear system
    and constitutive functions that give numbers, treats the mirror image of a cell as the mirror image of what it does to the cell. *)
Theorem ader_handless o nodes bs w SIG wallf ph prim ode DG_IT DG_TOL solve nonlin_solve nan_far dX FLUX m types :
  MULTI o = false -> VISCOUS o = true -> length nodes = N o -> tables o nodes bs w SIG ->
  solves (N o * N o) (kron [full (N o) (Mof nodes bs w); diagonal (N o) w]) (solve 1) ->
  mirrors o (ph m) FLUX -> (forall p c, prim m = Some (p, c) -> keeps o p /\ keeps o c) -> (forall ty, In ty types -> keeps o (wallf ty 0)) ->
  handless o wallf ph prim (fun m dt => Phi o (ph m) w (end_values bs) (Dv bs nodes) (Dmat bs (fun k => nth k nodes 0%R) w) (Mof nodes bs w) dt dX DG_IT DG_TOL solve nonlin_solve (fun _ => true) nan_far false false)
    ode false FLUX m types.
Proof.
  intros HM HV HL (G & HS & _) HSo HP Hp Hw. split; [exact HP|]. split; [exact Hp|]. split; [exact Hw|]. intros dt q q' t Ht Hq.
  apply (predictor_mirrored o (ph m) nodes bs w dt dX DG_IT DG_TOL solve nonlin_solve (fun _ => true) nan_far FLUX HP HM HV HL G HS HSo ltac:(reflexivity) q q' t Ht Hq).
Qed.
(** ** Cases that meet the hypotheses *)
(** the nodes of the shipped order *)
Lemma symmetric_basis : exists x0 bs w, dg_basis [x0; (1 - x0)%R] bs w.
Proof.
  destruct LegendreProps.gauss_hyps as [A B]. destruct (gauss_dg_basis 2 2 _ ltac:(lia) A B) as [x [w [bs [_ [G X]]]]].
  exists (scaled_nodes x 0%nat), bs, (scaled_weights w). replace (1 - scaled_nodes x 0)%R with (scaled_nodes x 1); [exact G|].
  unfold scaled_nodes. rewrite (X 0%nat), (X 1%nat) by lia. cbn [Nat.eqb]. field.
Qed.
Lemma symmetric_tables : exists nodes bs w inv SIG, length nodes = 2 /\ weno_setup nodes bs inv SIG 1 100000 (1 / 100) /\ tables ex_opt nodes bs w SIG.
Proof.
  destruct symmetric_basis as (x0 & bs & w & G). set (nodes := [x0; (1 - x0)%R]) in *. pose proof G as (D & B & _).
  assert (S : forall i, i < 2 -> nth (2 - 1 - i) nodes 0%R = (1 - nth i nodes 0)%R) by (intros [|[|i]] Hi; [cbn; ring|cbn; ring|lia]).
  destruct (solver_exists nodes bs D B ltac:(cbn; lia)) as [inv SV].
  destruct (oscillation_gram_partial nodes bs (mkbuf (2 * 2) (fun _ => Some 0%R)) (fun _ _ => 0%R) D B ltac:(cbn; lia) eq_refl) as [_ P]; [reflexivity|].
  exists nodes, bs, w, inv, (gram_sum nodes bs). split; [reflexivity|]. split; [repeat split; try lra; try assumption; cbn; lia|]. split; [exact G|]. split; [exact S|].
  intros i j Hi Hj. apply (gram_mirror nodes bs D B S); assumption.
Qed.

(** a gas with viscous strain, its own pressure, stresses, sources and wave speeds; the code's walls; a drag as the relaxation *)
Definition ex_drag (_ : matpar) (h : R) : num -> num := option_map (fun v k => if k =? 2 then v k * (1 - h) else v k)%R.
Definition ex_walls (ty d : nat) : num -> num := option_map (wall ex_opt (fun q => q) ty d).
Definition ex_specrad (M : mat) : R := Rabs (M 0 0 + M 1 1 + M 2 2).
Definition ex_rates : PhysInst.rates := PhysInst.mkrates 1 1 1 1 1 1 1 1 1 1 1 1 1 1 1 1 1 1 1 1.
Definition ex_phys (m : matpar) : phys := PhysInst.gpr ex_opt (mp_par m) (fun _ => (0, 0, 0)%R) ex_specrad (fun _ x => x) (source_or_zero ex_opt (mp_par m) ex_rates (fun _ => (0, 0, 0)%R)).
Definition ex_gas : matpar := mkmatpar (PhysProps.demo_par STIFFENED_GAS 300) false.
Lemma ex_handless Phi types : (forall ty, In ty types -> ty = 3 \/ ty = 5) -> handless ex_opt ex_walls ex_phys (fun m => Some (option_map (Pvec ex_opt (mp_par m) (fun _ => (0, 0, 0)%R)), option_map (Cvec ex_opt (mp_par m)))) Phi ex_drag true 0 ex_gas types.
Proof.
  intros Hty. split; [|split; [|split]].
  - unfold ex_phys. apply gpr_mirrors; try reflexivity. intros t M Ht. unfold ex_specrad. f_equal. rewrite !(Rmult_comm (t _) (M _ _)), !Rmult_assoc, !Ht. ring.
  - intros p c E. injection E as <- <-. split; intros q; unfold at_numbers; cbn [option_map val]; [apply Pvec_mirror|apply Cvec_mirror]; reflexivity.
  - intros ty H. destruct (Hty ty H) as [-> | ->]; intros q; unfold at_numbers, ex_walls; cbn [option_map val].
    + apply stick_wall_keeps. discriminate.
    + change 5 with SYMMETRIC. rewrite !symmetric_wall by reflexivity. reflexivity.
  - intros h q. unfold at_numbers, ex_drag, mirror. cbn [option_map val]. apply functional_extensionality. intros k. destruct (k =? 2); ring.
Qed.
Definition ex_prim (m : matpar) : option ((num -> num) * (num -> num)) := Some (option_map (Pvec ex_opt (mp_par m) (fun _ => (0, 0, 0)%R)), option_map (Cvec ex_opt (mp_par m))).
Lemma ex_symmetric Phi : exists nodes bs w inv SIG, tables ex_opt nodes bs w SIG /\
  forall n (bt : nat -> nat) p, 2 <= n -> (forall k, bt k <= 5) -> 0 < p ->
    numeric ex_opt SIG 1 100000 (1 / 100) inv ex_walls ex_prim Phi (fun _ _ => true) ex_drag true true [n] bt ex_gas nodes bs /\
    exists team : matpar -> grid -> list bool -> R -> nat * list nat, (forall m g k dt, fst (team m g k dt) = p) /\ configured ex_opt Phi true 0 [n] bt [1%R] team /\
      finishing ex_opt (fun k => nth k nodes 0%R) w (end_values bs) (Dv bs nodes) SIG 1 100000 (1 / 100) inv ex_walls ex_phys ex_prim Phi (fun _ _ => true) ex_drag true true 0 [n] bt [1%R] team.
Proof.
  destruct symmetric_tables as (nodes & bs & w & inv & SIG & L & HW & HT). exists nodes, bs, w, inv, SIG. split; [exact HT|]. intros n bt p Hn Hb Hp.
  assert (C : forall team : matpar -> grid -> list bool -> R -> nat * list nat, (forall m g k dt, 0 < fst (team m g k dt)) -> configured ex_opt Phi true 0 [n] bt [1%R] team).
  { intros team T. split.
    - split; [reflexivity|]. split; [lia|]. split; cbn; lra.
    - left. exists n. split; [reflexivity|]. cbn. lia.
    - intros k Hk. apply Hb.
    - intros. apply T.
    - discriminate. }
  split.
  - split; [exact L|]. split; [exact HW|]. split; [split; intros v; eexists; reflexivity|]. split; [intros k Hk; split; [apply Hb|intros _ v; eexists; reflexivity]|]. split; [|reflexivity]. intros h v. eexists. reflexivity.
  - destruct (finishing_exists ex_opt (fun k => nth k nodes 0%R) w (end_values bs) (Dv bs nodes) SIG 1 100000 (1 / 100) inv ex_walls ex_phys ex_prim Phi (fun _ _ => true) ex_drag true true 0 [n] bt [1%R] (fun _ _ _ _ => p)) as (team & T & F); [auto| |].
    + apply C. intros. exact Hp.
    + exists team. split; [exact T|]. split; [|exact F]. apply C. intros. rewrite T. exact Hp.
Qed.
(** the same gas with the unsplit solver, the tables of the shipped order, 50 iterations and the code's tolerance *)
Example ader_case nan_far nonlin_solve types : (forall ty, In ty types -> ty = 3 \/ ty = 5) ->
  exists nodes bs w SIG solve, tables ex_opt nodes bs w SIG /\ length nodes = N ex_opt /\
  handless ex_opt ex_walls ex_phys ex_prim (fun m dt => DgModel.Phi ex_opt (ex_phys m) w (end_values bs) (Dv bs nodes) (Dmat bs (fun k => nth k nodes 0%R) w) (Mof nodes bs w) dt (fun _ => 1%R) 50 (6 / 1000000) solve nonlin_solve (fun _ => true) nan_far false false)
    ex_drag false 0 ex_gas types.
Proof.
  intros Hty. destruct symmetric_tables as (nodes & bs & w & inv & SIG & L & HW & HT). pose proof HT as (G & _).
  destruct (two_node_solver ex_opt nodes bs w G eq_refl L) as [solve S]. exists nodes, bs, w, SIG, (fun _ => solve). split; [exact HT|]. split; [exact L|].
  destruct (ex_handless (fun _ _ _ _ => Ok None) types Hty) as (A & B & C & _). apply ader_handless with (SIG := SIG); try assumption; reflexivity.
Qed.
Definition ex_line : grid := map (fun a k => (INR (S a) + INR k)%R) (seq 0 4).
(** C94: a stick wall on the left and a symmetric one on the right, three threads; the mirrored field with the walls exchanged, one thread. Both runs end at time 1. *)
Example mirror_case Phi svd fill tol : (forall q, fst (svd (get_A (mirror ex_opt q))) = fst (svd (get_A q))) ->
  exists nodes bs w inv SIG team team', (forall m g k dt, fst (team m g k dt) = 3) /\ (forall m g k dt, fst (team' m g k dt) = 1) /\
  let prog bt team := program ex_opt (fun k => nth k nodes 0%R) w (end_values bs) (Dv bs nodes) SIG 1 100000 (1 / 100) inv ex_walls ex_phys ex_prim Phi (fun _ _ => true) ex_drag true true 0 [4] bt [1%R] team
      svd (fun _ _ _ => Some 1%R) fill (fun _ => false) false (1 / 2) 1 tol [ex_gas] 11 in
  exists s s', prog (fun k => if k =? 0 then STICK else SYMMETRIC) team ex_line = Ok (s, false) /\ prog (fun k => if k =? 0 then SYMMETRIC else STICK) team' (map (mirror ex_opt) (rev ex_line)) = Ok (s', false) /\
    s_t s = 1%R /\ s_t s' = 1%R /\ s_u s' = image (mirror ex_opt) (flipped 4) (s_u s).
Proof.
  intros Hsvd. destruct (ex_symmetric Phi) as (nodes & bs & w & inv & SIG & HT & HX). set (bt := fun k => if k =? 0 then STICK else SYMMETRIC). set (bt' := fun k => if k =? 0 then SYMMETRIC else STICK).
  assert (Hb : forall k, bt k <= 5) by (intros [|k]; unfold bt, STICK, SYMMETRIC; cbn; lia). assert (Hb' : forall k, bt' k <= 5) by (intros [|k]; unfold bt', STICK, SYMMETRIC; cbn; lia).
  destruct (HX 4 bt 3 ltac:(lia) Hb ltac:(lia)) as (NU & team & T & C & F). destruct (HX 4 bt' 1 ltac:(lia) Hb' ltac:(lia)) as (NU' & team' & T' & C' & F').
  exists nodes, bs, w, inv, SIG, team, team'. split; [exact T|]. split; [exact T'|]. intros prog.
  assert (SL : slow [1%R] (fun _ _ _ => Some 1%R) 1).
  { split; [lra|]. intros q m' c H. cbn [speed_sum]. specialize (H 0 ltac:(cbn; lia)). injection H as H. rewrite <- H. lra. }
  destruct (run_completes ex_opt (fun k => nth k nodes 0%R) w (end_values bs) (Dv bs nodes) SIG 1 100000 (1 / 100) inv ex_walls ex_phys ex_prim Phi (fun _ _ => true) ex_drag true true 0 [4] bt [1%R] team
    svd (fun _ _ _ => Some 1%R) fill (fun _ => false) false (1 / 2) 1 tol ex_gas C F eq_refl eq_refl ltac:(lra) ltac:(lra) ltac:(reflexivity) ltac:(discriminate) nodes bs 1 ex_line 11 NU SL ltac:(cbn [INR]; lra) eq_refl) as (s & E & Et & _).
  pose proof (run_mirrors_1d ex_opt nodes bs w SIG 1 100000 (1 / 100) inv ex_walls ex_phys ex_prim Phi (fun _ _ => true) ex_drag true true 0 [1%R] eq_refl eq_refl HT
    svd (fun _ _ _ => Some 1%R) fill fill (fun _ => false) (1 / 2) 1 tol ex_gas eq_refl eq_refl (conj (fun _ => eq_refl) Hsvd) 4 bt bt' team team' 11 ex_line C F C' F' NU NU' eq_refl eq_refl eq_refl
    (ex_handless Phi [bt 0; bt 1] ltac:(intros ty [<-|[<-|[]]]; unfold bt; cbn; auto)) ltac:(reflexivity) eq_refl) as X.
  change (flipped 4) with (flipped (length ex_line)) in X at 1. rewrite flipped_field in X. rewrite E in X. cbn [image_run] in X. exists s, (image_state (mirror ex_opt) (flipped 4) s). repeat split; assumption.
Qed.
(** C95: four cells behind a symmetric wall, and the eight cells of the whole line *)
Example wall_case Phi svd fill tol : (forall q, fst (svd (get_A (mirror ex_opt q))) = fst (svd (get_A q))) ->
  exists nodes bs w inv SIG team team', (forall m g k dt, fst (team m g k dt) = 3) /\ (forall m g k dt, fst (team' m g k dt) = 1) /\
  let prog n bt team := program ex_opt (fun k => nth k nodes 0%R) w (end_values bs) (Dv bs nodes) SIG 1 100000 (1 / 100) inv ex_walls ex_phys ex_prim Phi (fun _ _ => true) ex_drag true true 0 [n] bt [1%R] team
      svd (fun _ _ _ => Some 1%R) fill (fun _ => false) false (1 / 2) 1 tol [ex_gas] 11 in
  exists s s', prog 4 (fun k => if k =? 0 then SYMMETRIC else STICK) team ex_line = Ok (s, false) /\ prog 8 (fun k => STICK) team' (map (mirror ex_opt) (rev ex_line) ++ ex_line) = Ok (s', false) /\
    s_t s = 1%R /\ s_t s' = 1%R /\ length (s_u s) = 4 /\ s_u s' = map (mirror ex_opt) (rev (s_u s)) ++ s_u s.
Proof.
  intros Hsvd. destruct (ex_symmetric Phi) as (nodes & bs & w & inv & SIG & HT & HX). set (bt := fun k => if k =? 0 then SYMMETRIC else STICK).
  assert (Hb : forall k, bt k <= 5) by (intros [|k]; unfold bt, STICK, SYMMETRIC; cbn; lia).
  destruct (HX 4 bt 3 ltac:(lia) Hb ltac:(lia)) as (NU & team & T & C & F). destruct (HX (4 + 4) (fun _ => bt 1) 1 ltac:(lia) (fun _ => Hb 1) ltac:(lia)) as (NU' & team' & T' & C' & F').
  exists nodes, bs, w, inv, SIG, team, team'. split; [exact T|]. split; [exact T'|]. intros prog.
  assert (SL : slow [1%R] (fun _ _ _ => Some 1%R) 1).
  { split; [lra|]. intros q m' c H. cbn [speed_sum]. specialize (H 0 ltac:(cbn; lia)). injection H as H. rewrite <- H. lra. }
  destruct (run_completes ex_opt (fun k => nth k nodes 0%R) w (end_values bs) (Dv bs nodes) SIG 1 100000 (1 / 100) inv ex_walls ex_phys ex_prim Phi (fun _ _ => true) ex_drag true true 0 [4] bt [1%R] team
    svd (fun _ _ _ => Some 1%R) fill (fun _ => false) false (1 / 2) 1 tol ex_gas C F eq_refl eq_refl ltac:(lra) ltac:(lra) ltac:(reflexivity) ltac:(discriminate) nodes bs 1 ex_line 11 NU SL ltac:(cbn [INR]; lra) eq_refl) as (s & E & Et & _).
  assert (W : mirror_wall ex_opt ex_walls bt).
  { split; [unfold bt, SYMMETRIC; cbn; lia|]. split; [|unfold bt, STICK; cbn; lia]. intros q. unfold at_numbers, ex_walls. cbn [option_map val bt Nat.eqb]. apply symmetric_wall. reflexivity. }
  pose proof (run_at_wall ex_opt nodes bs w SIG 1 100000 (1 / 100) inv ex_walls ex_phys ex_prim Phi (fun _ _ => true) ex_drag true true 0 [1%R] eq_refl eq_refl HT
    svd (fun _ _ _ => Some 1%R) fill fill (fun _ => false) (1 / 2) 1 tol ex_gas eq_refl eq_refl (conj (fun _ => eq_refl) Hsvd) 4 bt team team' 11 ex_line C F C' F' NU NU' eq_refl
    (ex_handless Phi [bt 1] ltac:(intros ty [<-|[]]; unfold bt; cbn; auto)) W ltac:(reflexivity) eq_refl) as X.
  assert (L : length (s_u s) = 4).
  { pose proof (run_never_undefined ex_opt (fun k => nth k nodes 0%R) w (end_values bs) (Dv bs nodes) SIG 1 100000 (1 / 100) inv ex_walls ex_phys ex_prim Phi (fun _ _ => true) ex_drag true true 0 [4] bt [1%R] team
      svd (fun _ _ _ => Some 1%R) fill (fun _ => false) false (1 / 2) 1 tol ex_gas 11 ex_line C eq_refl eq_refl ltac:(lra) ltac:(lra) ltac:(reflexivity) eq_refl) as Y.
    rewrite E in Y. destruct Y as [Y|[Y|Y]]; [|discriminate|discriminate]. destruct Y as (r & Y & _ & L & _). injection Y as <-. exact L. }
  rewrite E in X. cbn [copies_run] in X. exists s. eexists. split; [exact E|]. split; [exact X|]. split; [exact Et|]. split; [exact Et|]. split; [exact L|]. cbn [copies_state s_u]. rewrite <- L. apply whole_field.
Qed.

(** ** What the mirror theorems leave out, and why *)
(** grid.cpp's symmetric wall shows the mirror image of a cell, except that it does not turn the thermal impulse round *)
Theorem symmetric_wall_is_mirror o ds q : THERMAL o = false -> wall o ds SYMMETRIC 0 q = mirror o q.
Proof. apply symmetric_wall. Qed.
Theorem symmetric_wall_thermal_refuted o ds : THERMAL o = true -> exists q, wall o ds SYMMETRIC 0 q <> mirror o q.
Proof. intros HT. exists (fun _ => 1%R). intros X. apply (symmetric_wall_thermal o ds HT). rewrite X. reflexivity. Qed.
(** with several materials (MULTI) the flux of the concentration is overwritten by the right state's, and which state is the right one depends on the direction *)
Theorem flux_mirror_multi_refuted : exists o ph NODES WGHTS qL qR, MULTI o = true /\ mirrors o ph 0 /\
  FvSpec.numflux o ph NODES WGHTS 0 (mirror o qR) (mirror o qL) 0 (mV o) <> (- (sign o (mV o) * FvSpec.numflux o ph NODES WGHTS 0 qL qR 0 (mV o)))%R.
Proof.
  exists (mkopt true false true 0 true false 2), (mkphys (fun _ => 0%R) (fun _ _ _ => 0%R) (fun _ _ => 0%R) 0%R (fun _ _ => 0%R) (fun _ _ => 0%R) (fun _ _ _ _ => 0%R) (fun _ x => x)), (fun _ => 0%R), (fun _ => 0%R),
    (fun _ => 1%R), (fun k => if k =? 0 then 1%R else 0%R). split; [reflexivity|]. split.
  - split; try reflexivity; try (intros X; destruct (X eq_refl)); cbn; intros.
    + ring.
    + apply functional_extensionality. intros k. unfold mirror. ring.
  - unfold FvSpec.numflux, D, D_RUS. cbn. unfold flux, bump, upd, mirror, sign. cbn. lra.
Qed.

Print Assumptions step_mirrors_met_1d.
Print Assumptions step_mirrors_1d.
Print Assumptions run_mirrors_met_1d.
Print Assumptions run_mirrors_1d.
Print Assumptions ader_handless.
Print Assumptions step_at_wall_met.
Print Assumptions step_at_wall.
Print Assumptions run_at_wall_met.
Print Assumptions run_at_wall.
Print Assumptions symmetric_wall_is_mirror.
Print Assumptions symmetric_wall_thermal_refuted.
Print Assumptions flux_mirror_multi_refuted.
Print Assumptions gpr_mirrors.
