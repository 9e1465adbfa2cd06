(** C89, C90: a whole run with several materials. *)
From Coq Require Import Reals Lia Lra ZArith.
From Verif Require Import Base Options Sum EqModel EqSpec FvModel FvBody FvProps PolyModel WenoModel WenoProps DgModel DgSpec DgProof2 DgProps GridModel StepperModel StepperProps AderModel AderProof3 AderProps
  HomogModel SplitProps PhysModel RiemannModel UtilsModel UtilsProof UtilsProps IterModel IterSpec IterProof2 IterProps Split3Props SafeProof RunModel RunProof RunProof2 RunProps RunProof3 RunProof4 Run2Props
  FmmModel FmmSpec LevelSetModel FillModel FillProof3 FillProps MFillSpec MFillProof2 MFillProps MRunModel MRunProof MRunProof2.
Import List ListNotations.
Open Scope nat_scope.

(** the star state is found on whatever it is asked for, without heat conduction or with sticking materials (C58 has the case left out) *)
Lemma star_loop_ok o stick relaxation TOL inverse nan dt ML MR : THERMAL o = false \/ stick = true -> forall fuel QL QR c, exists r, star_loop o stick relaxation TOL inverse nan fuel dt ML MR QL QR c = Ok r.
Proof.
  intros H. induction fuel as [|fuel IH]; intros QL QR c; cbn [star_loop]; destruct (_ && _)%bool; try (eexists; reflexivity).
  assert (X : forall x y, exists r, star_stepper o stick inverse x y ML MR = Ok r).
  { intros x y. unfold star_stepper. destruct (negb (vacuum MR)); [|eexists; reflexivity]. destruct H as [H| ->]; [|eexists; reflexivity]. destruct stick; [eexists; reflexivity|]. unfold slip_bcs. rewrite H. eexists. reflexivity. }
  destruct (X (if relaxation then relax ML QL (dt / 2) else QL) (if relaxation then if negb (vacuum MR) then relax MR QR (dt / 2) else QR else QR)) as [[a b] ->]. cbn [bind]. apply IH.
Qed.
Lemma run_star_ok o stick relaxation TOL inverse nan of ndim QL QR ML MR dt n : THERMAL o = false \/ stick = true -> ndim <= 3 ->
  exists Q, run_star o stick relaxation TOL inverse nan of ndim QL QR ML MR dt n = Ok Q.
Proof.
  intros H Hn. unfold run_star, left_star_state. assert (X : exists M, rotation_matrix (map n (seq 0 ndim)) = Ok M).
  { destruct ndim as [|[|[|[|]]]]; [..|lia]; cbn [seq map]; unfold rotation_matrix; cbn; eexists; reflexivity. }
  destruct X as [M ->]. cbn [bind]. destruct (star_loop_ok o stick relaxation TOL inverse nan dt (of ML) (of MR) H IT_LIM (rotate_tensors o QL M) (rotate_tensors o QR M) 0) as [[Q c] ->]. cbn [bind].
  destruct (nan Q); cbn [bind]; eauto.
Qed.

(** ** C88 in the words of the run: arrays are lists of cells, star states are those of the interface solver *)
Lemma take_vecs_are (b : buf vec) n f : (forall i, i < n -> rd b i = Ok (f i)) -> forall k a, a + k <= n -> take_vecs b k a = Ok (map f (seq a k)).
Proof.
  intros H. induction k as [|k IH]; intros a Ha; cbn [take_vecs seq map]; [reflexivity|]. rewrite H by lia. cbn [bind]. rewrite IH by lia. reflexivity.
Qed.
Lemma buf_cells_are (b : buf vec) n f : stores n b f -> buf_cells b = Ok (map f (seq 0 n)).
Proof. intros [L H]. unfold buf_cells. rewrite L. apply (take_vecs_are b n f H). lia. Qed.
Lemma map_nth_self {A} (d : A) : forall l : list A, map (fun i => nth i l d) (seq 0 (length l)) = l.
Proof.
  induction l as [|x l IH]; [reflexivity|]. cbn [length seq map nth]. f_equal. rewrite <- seq_shift, map_map. exact IH.
Qed.
Lemma cells_buf_are (g : grid) : buf_cells (cells_buf g) = Ok g.
Proof.
  rewrite (buf_cells_are _ (length g) (fun i => nth i g (fun _ => 0%R))); [rewrite map_nth_self; reflexivity|]. split; [reflexivity|]. intros i Hi. apply rd_ok; [exact Hi|]. cbn [cells_buf bdat]. apply nth_error_nth', Hi.
Qed.
Section Ghosts.
Variable o : options.
Variables (stick relaxation : bool) (TOL : R) (inverse : nat -> (nat -> nat -> R) -> nat -> nat -> R) (nanq : vec -> bool) (of : matpar -> material).
Variables (M0 M1 : matpar) (dt : R) (nx j : nat) (h : R) (rising : bool) (u g0 g1 : grid) (k0 k1 : list bool).
Notation cell := (fun i => nth i u (fun _ => 0%R)).
Notation phi := (fun i => nth i u (fun _ => 0%R) (V o - 1)).
Notation a := (crossing_fraction j phi).
(** cell i, with its level set set to the signed distance *)
Definition cell_redistanced (i : nat) : vec := upd (cell i) (V o - 1) (signed_distance j rising h a i).
(** what material [mat] with parameters Mp, next to Mo, has after the filling, if it had g *)
Definition ghosts_of (mat : nat) (Mp Mo : matpar) (g g' : grid) (k' : list bool) : Prop :=
  if mp_void Mp then g' = g /\ k' = repeat false nx
  else let left := on_left rising mat in
    exists s c, left_star_state o stick relaxation TOL inverse nanq (cell_redistanced (last_cell left j)) (cell_redistanced (beyond left j a)) (of Mp) (of Mo) dt [if left then 1%R else (-1)%R] = Ok (s, c) /\
      g' = map (fun i => if (Nat.leb 1 (outside left j i) && Nat.leb (outside left j i) (10 * Options.N o))%bool then with_material o (cell_redistanced i) s else cell_redistanced i) (seq 0 nx) /\
      k' = map (fun i => Nat.leb (outside left j i) 1) (seq 0 nx).
Theorem ghost_filling_1d : LSET o = 1 -> 1 <= Options.N o -> 3 <= nx -> (0 < h)%R -> (h * (INR nx + 1) < maxDouble)%R -> THERMAL o = false \/ stick = true ->
  length u = nx -> one_interface nx j rising phi -> (forall i, i < nx -> (phi i <= 0 \/ doubleEpsilon < phi i)%R) ->
  (forall mat Mp, nth_error [M0; M1] mat = Some Mp -> mp_void Mp = false -> beyond (on_left rising mat) j a < nx) ->
  exists g0' g1' k0' k1', run_fill o (run_star o stick relaxation TOL inverse nanq of 1) [nx] [h] [M0; M1] [g0; g1] [k0; k1] u dt = Ok (map cell_redistanced (seq 0 nx), [g0'; g1'], [k0'; k1']) /\
    ghosts_of 0 M0 M1 g0 g0' k0' /\ ghosts_of 1 M1 M0 g1 g1' k1'.
Proof using.
  intros HL HN Hnx Hh Hmax HTh Lu HI Heps HR. set (star := run_star o stick relaxation TOL inverse nanq of 1).
  assert (Hstar : forall q q' m m' n, exists s, star q q' m m' dt n = Ok s) by (intros; apply run_star_ok; [assumption|lia]).
  destruct (ghost_cells_1d o star M0 M1 dt nx j h rising cell HL HN Hnx Hh Hmax HI Heps Hstar (cells_buf g0) (cells_buf g1) (fun i => nth i k0 false) (fun i => nth i k1 false) HR) as (b0 & b1 & m0 & m1 & E & H0 & H1).
  assert (RD : forall i, i < nx -> redistanced o nx j h rising cell i = cell_redistanced i) by (intros i Hi; unfold redistanced; destruct (Nat.ltb_spec i nx); [reflexivity|lia]).
  assert (BND : forall left, last_cell left j < nx) by (destruct HI as [Hj _]; intros []; unfold last_cell; lia).
  assert (X : forall mat Mp Mo g b mk, nth_error [M0; M1] mat = Some Mp -> has o star dt nx j h rising cell mat Mp Mo (cells_buf g) b mk -> exists g', buf_cells b = Ok g' /\ ghosts_of mat Mp Mo g g' (map mk (seq 0 nx))).
  { intros mat Mp Mo g b mk Em Hb. unfold has in Hb. unfold ghosts_of. destruct (mp_void Mp) eqn:Ev.
    - destruct Hb as [-> Hk]. exists g. split; [apply cells_buf_are|]. split; [reflexivity|]. rewrite (map_ext _ (fun _ => false) Hk), map_const, seq_length. reflexivity.
    - destruct Hb as (s & Es & Sb & Hk). eexists. split; [apply (buf_cells_are _ _ _ Sb)|]. unfold star, run_star in Es. rewrite !RD in Es by (try apply BND; apply (HR mat Mp Em Ev)).
      apply bind_ok in Es. destruct Es as ([s' c] & El & Es). apply Ok_inj in Es. subst s'. exists s, c. split; [exact El|]. split.
      + apply map_ext_in. intros i Hi. apply in_seq in Hi. rewrite RD by lia. reflexivity.
      + apply map_ext_in. intros i Hi. apply in_seq in Hi. apply Hk. lia. }
  destruct (X 0 M0 M1 g0 b0 m0 eq_refl H0) as [g0' [E0 G0]]. destruct (X 1 M1 M0 g1 b1 m1 eq_refl H1) as [g1' [E1 G1]].
  exists g0', g1', (map m0 (seq 0 nx)), (map m1 (seq 0 nx)). split; [|split; assumption]. unfold run_fill. rewrite Lu. cbn [map]. change (map cells_buf [g0; g1]) with [cells_buf g0; cells_buf g1]. rewrite E. cbn [bind map_res]. rewrite E0. cbn [bind]. rewrite E1. cbn [bind].
  f_equal. f_equal. f_equal. apply map_ext_in. intros i Hi. apply in_seq in Hi. apply RD. lia.
Qed.
End Ghosts.
Print Assumptions ghost_filling_1d.

Lemma cells_fold nX : length nX = 1 \/ length nX = 2 -> FmmSpec.cells nX = fold_right Nat.mul 1 nX.
Proof. intros [H|H]; destruct nX as [|a [|b [|c l]]]; try discriminate H; cbn; lia. Qed.
Lemma init_shaped MPs (u : grid) n : length u = n -> shaped n MPs (s_grids (init MPs u)) (s_masks (init MPs u)).
Proof.
  intros L. cbn [init s_grids s_masks]. split; [apply repeat_length|]. split; [apply repeat_length|]. split; intros x Hx; apply repeat_spec in Hx; subst x; [exact L|]. rewrite repeat_length. exact L.
Qed.

Local Notation num := WenoModel.num.
Section Run.
Variable o : options.
Variables NODES WGHTS : nat -> R.
Variables ENDVALS DERVALS : nat -> nat -> R.
Variables (SIG : nat -> nat -> R) (LAMS LAMC EPS : R) (inv : stencil -> (nat -> R) -> nat -> R).
Variable wallf : nat -> nat -> num -> num.
Variable ph : matpar -> phys.
Variable prim : matpar -> option ((num -> num) * (num -> num)).
Variable Phi : matpar -> R -> nat -> list num -> res (option (nat -> option nodal)).
Variable valid : matpar -> nodal -> bool.
Variable ode : matpar -> R -> num -> num.
Variables (SPLIT HALF_STEP : bool) (FLUX : nat) (nX : list nat) (bt : nat -> nat) (dX : list R).
Variable team : matpar -> grid -> list bool -> R -> nat * list nat.
Variable svd : Mat3.mat3 -> Mat3.vec3 * Mat3.mat3.
Variable speed : vec -> nat -> matpar -> option R.
Variable star : vec -> vec -> matpar -> matpar -> R -> (nat -> R) -> res vec.
Variable nan : grid -> bool.
Variable ROT : bool.
Variables (CFL tf tol : R) (MPs : list matpar).
Notation advance := (run_advance o NODES WGHTS ENDVALS DERVALS SIG LAMS LAMC EPS inv wallf ph prim Phi valid ode SPLIT HALF_STEP FLUX nX bt dX team).
Notation fill := (run_fill o star nX dX MPs).
Notation prog := (program o NODES WGHTS ENDVALS DERVALS SIG LAMS LAMC EPS inv wallf ph prim Phi valid ode SPLIT HALF_STEP FLUX nX bt dX team svd speed fill nan ROT CFL tf tol MPs).
Notation cells := (fold_right Nat.mul 1 nX).
Notation conf := (configured o Phi SPLIT FLUX nX bt dX team).
Notation turn := (turn o svd speed fill advance nan ROT dX CFL tf tol MPs).
(** what the run has before the turns of its loop, and the ghost filling with which such a turn starts *)
Definition visited (u : grid) (s : state) : Prop := reached o svd speed fill advance nan ROT dX CFL tf tol MPs (init MPs u) s /\ (s_t s < tf)%R.
Definition ghosts (s : state) := fill (s_grids s) (s_masks s) (s_u s) (s_dt s).

Hypothesis HC : conf.
Hypothesis HL : 0 < LSET o.
Hypothesis HMP : LSET o < length MPs.
Hypothesis HCFL : (0 < CFL)%R.
Hypothesis Htf : (0 < tf)%R.

Lemma dims12 : length nX = 1 \/ length nX = 2.
Proof using HC. destruct HC as [_ [(nx & -> & _)|(nx & ny & -> & _)] _ _ _]; cbn; auto. Qed.
Lemma fill_shape gs ms (u : grid) dt : shaped cells MPs gs ms -> length u = cells -> forall u' gs' ms', fill gs ms u dt = Ok (u', gs', ms') -> length u' = cells /\ shaped cells MPs gs' ms'.
Proof using HC.
  rewrite <- (cells_fold nX dims12). intros SH Lu u' gs' ms' E. destruct (run_fill_shape o star nX dX MPs dims12 gs ms u dt SH Lu) as [(a & b & c & E' & L & S')|[_ X]].
  - rewrite E in E'. apply Ok_inj in E'. injection E' as <- <- <-. auto.
  - destruct (fill_ghost_cells _ _ _ _ _ _ _ _ _ _ _); [contradiction|rewrite E in X; discriminate X..].
Qed.
Lemma advance_keeps_length m g k dt : length g = cells -> length k = cells -> safe_outcome (fun g' => length g' = cells) (advance m g k dt).
Proof using HC.
  intros Lg Lk. destruct (step_safe o NODES WGHTS ENDVALS DERVALS SIG LAMS LAMC EPS inv wallf ph prim Phi valid ode SPLIT HALF_STEP FLUX nX bt dX team m g k dt HC Lg Lk) as [(x & E & L)|X]; [left; exists x; split; [exact E|congruence]|right; exact X].
Qed.

(** C89. If a run with several materials does not end with its output or with a NaN, then it fails exactly as the ghost filling does, for a state that the run has got to: nothing else of it
    has an undefined outcome *)
Theorem many_materials_run_safe_partial fuel u : (forall g, nan g = false) -> length u = cells ->
  safe_outcome (fun r => s_t (fst r) = tf /\ length (s_u (fst r)) = cells /\ snd r = false) (prog fuel u) \/
  exists s, visited u s /\ length (s_u s) = cells /\ same_failure (ghosts s) (prog fuel u).
Proof using HC HL HMP HCFL Htf.
  intros HN Lu. pose proof HC as [[HV _] _ _ _ _]. unfold program, iterator.
  destruct (mrun_safe o svd speed fill advance nan ROT dX CFL tf tol MPs HL HMP cells HV HCFL Htf HN) with (fuel := fuel) (s := init MPs u) as [[([s b] & E & [L Hb])|X]|X].
  - intros m g k dt. apply advance_keeps_length.
  - intros gs ms v dt SH Lv. apply fill_shape; assumption.
  - apply inv_init; assumption.
  - exact Lu.
  - apply init_shaped, Lu.
  - left. left. exists (s, b). cbn [fst snd] in *. subst b. split; [exact E|]. split; [|split; [exact L|reflexivity]].
    apply (run_ends_at_final_time o svd speed fill advance nan ROT dX CFL tf tol MPs u fuel s HCFL Htf E).
  - left. right. exact X.
  - right. destruct X as (s & R1 & T1 & L1 & _ & SF). exists s. split; [split; assumption|]. split; [exact L1|exact SF].
Qed.

(** and with bounded wave speeds, when the threads do finish, the loop ends *)
Theorem many_materials_run_ends_partial M fuel u : finishing o NODES WGHTS ENDVALS DERVALS SIG LAMS LAMC EPS inv wallf ph prim Phi valid ode SPLIT HALF_STEP FLUX nX bt dX team ->
  (forall g, nan g = false) -> slow dX speed M -> (tf < INR fuel * (CFL / M / 5))%R -> length u = cells ->
  (exists s, prog fuel u = Ok (s, false) /\ s_t s = tf /\ bdat (s_ret s) 99 = Some (s_u s, tf)) \/ prog fuel u = Throw "NaN" \/
  exists s, visited u s /\ length (s_u s) = cells /\ same_failure (ghosts s) (prog fuel u).
Proof using HC HL HMP HCFL Htf.
  intros HF HN HS HFu Lu. pose proof HC as [[HV _] _ _ _ _]. unfold program, iterator.
  destruct (mrun_ends o svd speed fill advance nan ROT dX CFL tf tol MPs HL HMP True cells M HV HCFL Htf HN (proj1 HS) (slow_rate dX speed M HS)) with (fuel := fuel) (s := init MPs u) as [[([s b] & E & [L Hb])|[_ X]]|X].
  - intros m g k dt _ Lg Lk. pose proof (HF m g k dt Lg Lk) as EF. destruct (advance_keeps_length m g k dt Lg Lk) as [X|[X|X]]; [left; exact X|right; split; [exact I|exact X]|rewrite X in EF; discriminate].
  - intros gs ms v dt SH Lv. apply fill_shape; assumption.
  - apply inv_init; assumption.
  - exact Lu.
  - apply init_shaped, Lu.
  - right. cbn [init s_t]. lra.
  - left. exists s. cbn [fst snd] in *. subst b. split; [exact E|].
    apply (run_ends_at_final_time o svd speed fill advance nan ROT dX CFL tf tol MPs u fuel s HCFL Htf E).
  - right. left. exact X.
  - right. right. destruct X as (s & R1 & T1 & L1 & _ & SF). exists s. split; [split; assumption|]. split; [exact L1|exact SF].
Qed.

(** C90. At every time after the start, in every snapshot and at the end: the cells of a void hold nothing *)
Theorem voids_stay_empty fuel u s b : prog fuel u = Ok (s, b) -> holds_of_output (fun t g => (0 < t)%R -> voids_empty o MPs g) s.
Proof using HC HL HCFL.
  intros E. pose proof HC as [[HV _] _ _ _ _]. unfold program, iterator in E.
  destruct (mrun_keeps o svd speed fill advance nan ROT dX CFL tf tol MPs HL (fun t g => (0 < t)%R -> voids_empty o MPs g) HCFL) with (fuel := fuel) (s := init MPs u) (s' := s) (b := b) as [K1 K2].
  - intros s1 u0 gs ms dt gs1 u1 u' _ _ _ _ _ EU EP _. apply (mpost_empty o svd ROT tol MPs HV (S (s_count s1)) u1 u' (make_u_empty o MPs gs1 ms u0 u1 EU) EP).
  - cbn [init s_t]. lra.
  - intros i x Hx. left. cbn [init s_ret ret0 bdat] in Hx. congruence.
  - exact E.
  - split; [exact K1|]. intros i g t Hi. destruct (K2 i _ Hi) as [X|X]; [left; injection X as -> ->; auto|right; exact X].
Qed.

(** a run whose first time step would already pass the final time visits its initial state only *)
Lemma visited_once M u s : slow dX speed M -> (tf <= CFL / M / 5)%R -> visited u s -> s = init MPs u.
Proof using HCFL Htf.
  clear HC HL HMP. intros HS HT [R1 T1]. assert (X : s = init MPs u \/ s_t s = tf); [|destruct X as [X|X]; [exact X|lra]].
  clear T1. induction R1 as [|s s' R1 IH T1 E]; [left; reflexivity|right]. destruct IH as [->|X]; [|lra].
  destruct (turn_ok _ _ _ _ _ _ _ _ _ _ _ _ _ _ E) as (g & k & dt & ED & ET & _). cbn [after init s_t] in ET, ED, T1.
  assert (Z : (0 <= tf)%R) by lra. pose proof (timestep_le speed dX CFL tf MPs _ _ _ _ _ Z ED) as LE.
  pose proof (timestep_progress speed dX CFL tf MPs M _ _ _ _ _ HCFL (proj1 HS) (slow_rate dX speed M HS) ED) as PR. destruct PR as [PR|PR]; lra.
Qed.
End Run.
Print Assumptions many_materials_run_safe_partial.
Print Assumptions many_materials_run_ends_partial.
Print Assumptions voids_stay_empty.

(** ** One dimension, two materials, one interface *)
Section Line.
Variable o : options.
Variables NODES WGHTS : nat -> R.
Variables ENDVALS DERVALS : nat -> nat -> R.
Variables (SIG : nat -> nat -> R) (LAMS LAMC EPS : R) (inv : stencil -> (nat -> R) -> nat -> R).
Variable wallf : nat -> nat -> num -> num.
Variable ph : matpar -> phys.
Variable prim : matpar -> option ((num -> num) * (num -> num)).
Variable Phi : matpar -> R -> nat -> list num -> res (option (nat -> option nodal)).
Variable valid : matpar -> nodal -> bool.
Variable ode : matpar -> R -> num -> num.
Variables (SPLIT HALF_STEP : bool) (FLUX : nat) (nx : nat) (bt : nat -> nat) (h : R).
Variable team : matpar -> grid -> list bool -> R -> nat * list nat.
Variable svd : Mat3.mat3 -> Mat3.vec3 * Mat3.mat3.
Variable speed : vec -> nat -> matpar -> option R.
Variables (stick relaxation : bool) (TOL : R) (inverse : nat -> (nat -> nat -> R) -> nat -> nat -> R) (nanq : vec -> bool) (of : matpar -> material).
Variable nan : grid -> bool.
Variable ROT : bool.
Variables (CFL tf tol : R) (M0 M1 : matpar).
Notation star := (run_star o stick relaxation TOL inverse nanq of 1).
Notation MPs := [M0; M1].
Notation prog := (program o NODES WGHTS ENDVALS DERVALS SIG LAMS LAMC EPS inv wallf ph prim Phi valid ode SPLIT HALF_STEP FLUX [nx] bt [h] team svd speed (run_fill o star [nx] [h] MPs) nan ROT CFL tf tol MPs).
Notation visited := (visited o NODES WGHTS ENDVALS DERVALS SIG LAMS LAMC EPS inv wallf ph prim Phi valid ode SPLIT HALF_STEP FLUX [nx] bt [h] team svd speed star nan ROT CFL tf tol MPs).
Hypothesis HC : configured o Phi SPLIT FLUX [nx] bt [h] team.
Hypothesis HL : LSET o = 1.
Hypothesis HCFL : (0 < CFL)%R.
Hypothesis Htf : (0 < tf)%R.
Hypothesis HN : forall g, nan g = false.
Hypothesis Hnx : 3 <= nx.
Hypothesis Hh : (0 < h)%R.
Hypothesis Hmax : (h * (INR nx + 1) < maxDouble)%R.
Hypothesis HTh : THERMAL o = false \/ stick = true.

(** the level set of [u] changes sign once, keeps away from the smallest numbers, and has room for the probe one cell beyond the interface *)
Definition one_level_set (u : grid) : Prop :=
  let phi := fun i => nth i u (fun _ => 0%R) (V o - 1) in
  (forall i, i < nx -> (phi i <= 0 \/ doubleEpsilon < phi i)%R) /\
  exists j rising, one_interface nx j rising phi /\ forall mat Mp, nth_error MPs mat = Some Mp -> mp_void Mp = false -> beyond (on_left rising mat) j (crossing_fraction j phi) < nx.
Lemma line_filled gs ms (u : grid) dt : shaped nx MPs gs ms -> length u = nx -> one_level_set u -> exists r, run_fill o star [nx] [h] MPs gs ms u dt = Ok r.
Proof using HC HL Hnx Hh Hmax HTh.
  clear HCFL Htf HN. intros SH Lu [Heps (j & rising & HI & HR)]. pose proof SH as [S1 [S2 _]]. pose proof HC as [_ HD _ _ _]. assert (HN1 : 1 <= Options.N o) by (destruct HD as [(n & _ & X)|(n & n' & _ & X & _)]; lia).
  destruct gs as [|g0 [|g1 [|]]]; try discriminate S1. destruct ms as [|k0 [|k1 [|]]]; try discriminate S2.
  assert (LC : FmmSpec.cells [nx] = nx) by (cbn; lia).
  destruct (run_fill_shape o star [nx] [h] MPs (or_introl eq_refl) [g0; g1] [k0; k1] u dt) as [(a & b & c & E & _)|[X _]]; [rewrite LC; exact SH|rewrite LC; exact Lu|eauto|].
  exfalso. rewrite LC in X. destruct (ghost_cells_1d o star M0 M1 dt nx j h rising (fun i => nth i u (fun _ => 0%R)) HL) with (g0 := cells_buf g0) (g1 := cells_buf g1) (k0 := fun i => nth i k0 false) (k1 := fun i => nth i k1 false)
    as (a & b & c & d & E & _); try assumption.
  - intros. apply run_star_ok; [assumption|lia].
  - apply (X _ E).
Qed.
(** C89: as long as the level set stays like that, the run ends with its output or with a NaN *)
Theorem two_materials_run_safe fuel u : length u = nx -> (forall s, visited u s -> one_level_set (s_u s)) ->
  safe_outcome (fun r => s_t (fst r) = tf /\ length (s_u (fst r)) = nx /\ snd r = false) (prog fuel u).
Proof using HC HL HCFL Htf HN Hnx Hh Hmax HTh.
  intros Lu HO. pose proof HC as [[HV _] _ _ _ _].
  destruct (mrun_safe o svd speed (run_fill o star [nx] [h] MPs) (run_advance o NODES WGHTS ENDVALS DERVALS SIG LAMS LAMC EPS inv wallf ph prim Phi valid ode SPLIT HALF_STEP FLUX [nx] bt [h] team) nan ROT [h] CFL tf tol MPs
    ltac:(lia) ltac:(cbn; lia) nx HV HCFL Htf HN) with (fuel := fuel) (s := init MPs u) as [[([s b] & E & [L Hb])|X]|X].
  - intros m g k dt Lg Lk. assert (EC : fold_right Nat.mul 1 [nx] = nx) by (cbn; lia). rewrite <- EC in Lg, Lk.
    pose proof (advance_keeps_length o NODES WGHTS ENDVALS DERVALS SIG LAMS LAMC EPS inv wallf ph prim Phi valid ode SPLIT HALF_STEP FLUX [nx] bt [h] team HC m g k dt Lg Lk) as X. rewrite EC in X. exact X.
  - intros gs ms v dt SH Lv u' gs' ms' E. assert (EC : fold_right Nat.mul 1 [nx] = nx) by (cbn; lia).
    pose proof (fill_shape o Phi SPLIT FLUX [nx] bt [h] team star MPs HC gs ms v dt) as X. rewrite EC in X. exact (X SH Lv u' gs' ms' E).
  - apply inv_init; assumption.
  - exact Lu.
  - apply init_shaped, Lu.
  - left. exists (s, b). cbn [fst snd] in *. subst b. split; [exact E|]. split; [|split; [exact L|reflexivity]].
    apply (run_ends_at_final_time o svd speed _ _ nan ROT [h] CFL tf tol MPs u fuel s HCFL Htf E).
  - right. exact X.
  - exfalso. destruct X as (s & R1 & T1 & L1 & SH & SF). destruct (line_filled (s_grids s) (s_masks s) (s_u s) (s_dt s) SH L1 (HO s (conj R1 T1))) as [r Er]. unfold filling, same_failure in SF. rewrite Er in SF. exact SF.
Qed.
Lemma two_materials_loop NAN M fuel u : slow [h] speed M -> (tf < INR fuel * (CFL / M / 5))%R -> length u = nx -> (forall s, visited u s -> one_level_set (s_u s)) ->
  (forall m g k dt, In m MPs -> length g = nx -> length k = nx -> done NAN (fun g' => length g' = nx) (run_advance o NODES WGHTS ENDVALS DERVALS SIG LAMS LAMC EPS inv wallf ph prim Phi valid ode SPLIT HALF_STEP FLUX [nx] bt [h] team m g k dt)) ->
  (exists s, prog fuel u = Ok (s, false) /\ s_t s = tf /\ bdat (s_ret s) 99 = Some (s_u s, tf)) \/ (NAN /\ prog fuel u = Throw "NaN").
Proof using HC HL HCFL Htf HN Hnx Hh Hmax HTh.
  intros HS HFu Lu HO HA. pose proof HC as [[HV _] _ _ _ _]. assert (EC : fold_right Nat.mul 1 [nx] = nx) by (cbn; lia).
  destruct (mrun_ends o svd speed (run_fill o star [nx] [h] MPs) (run_advance o NODES WGHTS ENDVALS DERVALS SIG LAMS LAMC EPS inv wallf ph prim Phi valid ode SPLIT HALF_STEP FLUX [nx] bt [h] team) nan ROT [h] CFL tf tol MPs
    ltac:(lia) ltac:(cbn; lia) NAN nx M HV HCFL Htf HN (proj1 HS) (slow_rate [h] speed M HS)) with (fuel := fuel) (s := init MPs u) as [[([s b] & E & [L Hb])|X]|X].
  - exact HA.
  - intros gs ms v dt SH Lv u' gs' ms' E. pose proof (fill_shape o Phi SPLIT FLUX [nx] bt [h] team star MPs HC gs ms v dt) as X. rewrite EC in X. exact (X SH Lv u' gs' ms' E).
  - apply inv_init; assumption.
  - exact Lu.
  - apply init_shaped, Lu.
  - right. cbn [init s_t]. lra.
  - left. exists s. cbn [fst snd] in *. subst b. split; [exact E|].
    apply (run_ends_at_final_time o svd speed _ _ nan ROT [h] CFL tf tol MPs u fuel s HCFL Htf E).
  - right. exact X.
  - exfalso. destruct X as (s & R1 & T1 & L1 & SH & SF). destruct (line_filled (s_grids s) (s_masks s) (s_u s) (s_dt s) SH L1 (HO s (conj R1 T1))) as [r Er]. unfold filling, same_failure in SF. rewrite Er in SF. exact SF.
Qed.
Hypothesis HF : finishing o NODES WGHTS ENDVALS DERVALS SIG LAMS LAMC EPS inv wallf ph prim Phi valid ode SPLIT HALF_STEP FLUX [nx] bt [h] team.
Theorem two_materials_run_ends M fuel u : slow [h] speed M -> (tf < INR fuel * (CFL / M / 5))%R -> length u = nx -> (forall s, visited u s -> one_level_set (s_u s)) ->
  (exists s, prog fuel u = Ok (s, false) /\ s_t s = tf /\ bdat (s_ret s) 99 = Some (s_u s, tf)) \/ prog fuel u = Throw "NaN".
Proof using HC HL HCFL Htf HN Hnx Hh Hmax HTh HF.
  intros HS HFu Lu HO. assert (EC : fold_right Nat.mul 1 [nx] = nx) by (cbn; lia).
  destruct (two_materials_loop True M fuel u HS HFu Lu HO) as [X|[_ X]]; [|left; exact X|right; exact X].
  intros m g k dt _ Lg Lk. rewrite <- EC in Lg, Lk. pose proof (HF m g k dt Lg Lk) as EF.
  pose proof (advance_keeps_length o NODES WGHTS ENDVALS DERVALS SIG LAMS LAMC EPS inv wallf ph prim Phi valid ode SPLIT HALF_STEP FLUX [nx] bt [h] team HC m g k dt Lg Lk) as X. rewrite EC in X.
  destruct X as [X|[X|X]]; [left; exact X|right; split; [exact I|exact X]|rewrite X in EF; discriminate].
Qed.
(** and with functions that give numbers on numbers, the run completes *)
Theorem two_materials_run_completes nodes bs M fuel u :
  (forall m, In m MPs -> numeric o SIG LAMS LAMC EPS inv wallf prim Phi valid ode SPLIT HALF_STEP [nx] bt m nodes bs) ->
  slow [h] speed M -> (tf < INR fuel * (CFL / M / 5))%R -> length u = nx -> (forall s, visited u s -> one_level_set (s_u s)) ->
  exists s, prog fuel u = Ok (s, false) /\ s_t s = tf /\ bdat (s_ret s) 99 = Some (s_u s, tf).
Proof using HC HL HCFL Htf HN Hnx Hh Hmax HTh HF.
  intros HNu HS HFu Lu HO. assert (EC : fold_right Nat.mul 1 [nx] = nx) by (cbn; lia).
  destruct (two_materials_loop False M fuel u HS HFu Lu HO) as [X|[[] _]]; [|exact X].
  intros m g k dt Hm Lg Lk. rewrite <- EC in Lg, Lk. left.
  destruct (step_numeric o NODES WGHTS ENDVALS DERVALS SIG LAMS LAMC EPS inv wallf ph prim Phi valid ode SPLIT HALF_STEP FLUX [nx] bt [h] team m HC HF ltac:(discriminate) nodes bs g k dt (HNu m Hm) Lg Lk) as (u1 & E & L).
  exists u1. split; [exact E|congruence].
Qed.
End Line.
Print Assumptions two_materials_run_safe.
Print Assumptions two_materials_run_ends.
Print Assumptions two_materials_run_completes.

(** ** Cases *)
Definition pair_field (nx : nat) : grid := map ramp (seq 0 nx).
Lemma pair_field_at nx i : i < nx -> nth i (pair_field nx) (fun _ => 0%R) = ramp i.
Proof. intros Hi. unfold pair_field. rewrite nth_indep with (d' := ramp 0) by (rewrite map_length, seq_length; exact Hi). rewrite map_nth, seq_nth by exact Hi. reflexivity. Qed.
Lemma fraction_ext j p q : p j = q j -> p (j + 1) = q (j + 1) -> crossing_fraction j p = crossing_fraction j q.
Proof. unfold crossing_fraction. intros -> ->. reflexivity. Qed.
Lemma interface_ext nx j r p q : (forall i, i < nx -> p i = q i) -> one_interface nx j r p -> one_interface nx j r q.
Proof. intros E [H1 H2]. split; [exact H1|]. intros i Hi. rewrite <- E by exact Hi. apply H2, Hi. Qed.
Lemma pair_level nx M0 M1 : 3 < nx -> one_level_set one_level nx M0 M1 (pair_field nx).
Proof.
  intros Hn. unfold one_level_set. change (V one_level - 1) with 14. split.
  - intros i Hi. rewrite pair_field_at by exact Hi. apply ramp_eps.
  - exists 1, true. split; [apply (interface_ext nx 1 true (fun i => ramp i 14)); [intros; rewrite pair_field_at by assumption; reflexivity|apply ramp_interface; lia]|].
    intros mat Mp _ _. rewrite (fraction_ext 1 _ (fun i => ramp i 14)) by (rewrite pair_field_at by lia; reflexivity). rewrite ramp_fraction. unfold beyond. destruct (Rlt_dec _ _); destruct (on_left true mat); lia.
Qed.
(** five cells, the first two of the first material, the interface half a cell further: the two materials get ghost cells, whatever their constitutive laws *)
Example ghost_filling_case stick relaxation TOL inverse nanq of M0 M1 dt g0 g1 k0 k1 : exists g0' g1' k0' k1',
  run_fill one_level (run_star one_level stick relaxation TOL inverse nanq of 1) [5] [1%R] [M0; M1] [g0; g1] [k0; k1] (pair_field 5) dt = Ok (map (cell_redistanced one_level 1 1 true (pair_field 5)) (seq 0 5), [g0'; g1'], [k0'; k1']) /\
  ghosts_of one_level stick relaxation TOL inverse nanq of dt 5 1 1 true (pair_field 5) 0 M0 M1 g0 g0' k0' /\ ghosts_of one_level stick relaxation TOL inverse nanq of dt 5 1 1 true (pair_field 5) 1 M1 M0 g1 g1' k1'.
Proof.
  destruct (pair_level 5 M0 M1 ltac:(lia)) as [He _]. change (V one_level - 1) with 14 in He.
  apply ghost_filling_1d; try reflexivity; try (left; reflexivity); try (cbn; lia); try lra.
  - unfold maxDouble. cbn; lra.
  - apply (interface_ext 5 1 true (fun i => ramp i 14)); [intros i Hi; rewrite pair_field_at by assumption; reflexivity|apply ramp_interface; lia].
  - exact He.
  - intros mat Mp _ _. change (V one_level - 1) with 14. rewrite (fraction_ext 1 _ (fun i => ramp i 14)) by (rewrite pair_field_at by lia; reflexivity). rewrite ramp_fraction. unfold beyond. destruct (Rlt_dec _ _); destruct (on_left true mat); lia.
Qed.
Lemma pair_configured Phi nx team : 3 <= nx -> (forall m g k dt, fst (team m g k dt) = 3) -> configured one_level Phi true 0 [nx] (fun _ => 0) [1%R] team.
Proof.
  intros Hn T. split.
  - split; [reflexivity|]. split; [lia|]. split; cbn; lra.
  - left. exists nx. split; [reflexivity|]. cbn. lia.
  - intros k Hk. lia.
  - intros. rewrite T. lia.
  - discriminate.
Qed.
Lemma tenth_slow : slow [1%R] (fun _ _ _ => Some (1 / 10)%R) (1 / 10).
Proof. split; [lra|]. intros q m' c H. cbn [speed_sum]. specialize (H 0 ltac:(cbn; lia)). injection H as H. rewrite <- H. lra. Qed.
(** two materials on five cells, the second one a void: the run completes, whatever the materials are and whatever their star states; the void, that starts with something in it, is empty at the end *)
Example two_materials_case ph Phi svd of inverse nanq tol par0 par1 : let MPs := [mkmatpar par0 false; mkmatpar par1 true] in
  exists nodes bs w inv SIG team, (forall m, In m MPs -> numeric one_level SIG 1 100000 (1 / 100) inv (fun _ _ x => x) (fun _ => None) Phi (fun _ _ => true) ex_ode true true [5] (fun _ => 0) m nodes bs) /\
    configured one_level Phi true 0 [5] (fun _ => 0) [1%R] team /\ slow [1%R] (fun _ _ _ => Some (1 / 10)%R) (1 / 10) /\
    let fill := run_fill one_level (run_star one_level false true (1 / 100000000) inverse nanq of 1) [5] [1%R] MPs in
    exists s, program one_level (fun k => nth k nodes 0%R) w (end_values bs) (Dv bs nodes) SIG 1 100000 (1 / 100) inv (fun _ _ x => x) ph (fun _ => None) Phi (fun _ _ => true) ex_ode true true 0 [5] (fun _ => 0) [1%R] team
      svd (fun _ _ _ => Some (1 / 10)%R) fill (fun _ => false) false (1 / 2) (1 / 2) tol MPs 2 (pair_field 5) = Ok (s, false) /\ s_t s = (1 / 2)%R /\ voids_empty one_level MPs (s_u s) /\
    ~ voids_empty one_level MPs (pair_field 5).
Proof.
  intros MPs. destruct dg_basis_hyps as [nodes [bs [w [G L]]]]. pose proof G as [Dn [Bn _]]. destruct (weno_hyps nodes Dn ltac:(lia)) as [bs' [inv [SIG HW]]].
  pose proof HW as [_ [Bn' _]]. rewrite Bn in Bn'. injection Bn' as <-.
  destruct (finishing_exists one_level (fun k => nth k nodes 0%R) w (end_values bs) (Dv bs nodes) SIG 1 100000 (1 / 100) inv (fun _ _ x => x) ph (fun _ => None) Phi (fun _ _ => true) ex_ode true true 0 [5] (fun _ => 0) [1%R]
    (fun _ _ _ _ => 3) (fun _ _ _ _ => Nat.lt_0_succ 2) (pair_configured Phi 5 (fun _ _ _ _ => (3, [])) ltac:(lia) (fun _ _ _ _ => eq_refl))) as (team & T & F).
  pose proof (pair_configured Phi 5 team ltac:(lia) T) as C. assert (SL := tenth_slow).
  exists nodes, bs, w, inv, SIG, team.
  assert (NU : forall m, In m MPs -> numeric one_level SIG 1 100000 (1 / 100) inv (fun _ _ x => x) (fun _ => None) Phi (fun _ _ => true) ex_ode true true [5] (fun _ => 0) m nodes bs).
  { intros m _. split; [exact L|]. split; [exact HW|]. split; [exact I|]. split; [intros k Hk; split; lia|]. split; [|reflexivity]. intros h v. eexists. reflexivity. }
  split; [exact NU|]. split; [exact C|]. split; [exact SL|]. intros fill.
  destruct (two_materials_run_completes one_level (fun k => nth k nodes 0%R) w (end_values bs) (Dv bs nodes) SIG 1 100000 (1 / 100) inv (fun _ _ x => x) ph (fun _ => None) Phi (fun _ _ => true) ex_ode true true 0 5 (fun _ => 0) 1 team
    svd (fun _ _ _ => Some (1 / 10)%R) false true (1 / 100000000) inverse nanq of (fun _ => false) false (1 / 2) (1 / 2) tol (mkmatpar par0 false) (mkmatpar par1 true) C eq_refl) with (nodes := nodes) (bs := bs) (M := (1 / 10)%R) (fuel := 2) (u := pair_field 5) as (s & E & TE & _);
    try assumption; try lra; try lia; try reflexivity.
  - unfold maxDouble. cbn [INR]. lra.
  - left. reflexivity.
  - cbn [INR]. lra.
  - intros s Vs. apply visited_once with (M := (1 / 10)%R) in Vs; try assumption; try lra. subst s. apply pair_level. lia.
  - exists s. split; [exact E|]. split; [exact TE|]. split.
    + apply voids_stay_empty in E; [|exact C|cbn; lia|lra]. destruct E as [E _]. apply E. lra.
    + intros X. assert (A : In (ramp 4) (pair_field 5)) by (unfold pair_field; apply in_map, in_seq; lia). specialize (X _ A (mkmatpar par1 true)).
      assert (I1 : get_material_index one_level (ramp 4) = 1) by (rewrite index_one by reflexivity; change (V one_level - 1) with 14; unfold ramp; cbn [Nat.eqb INR]; destruct (Rle_dec _ _); [reflexivity|lra]).
      rewrite I1 in X. specialize (X eq_refl eq_refl 0 ltac:(cbn; lia)). unfold ramp in X. cbn [Nat.eqb INR] in X. lra.
Qed.
(** On three cells, the interface in the half cell before the last centre, the run reads past the end of the array in its first turn *)
Theorem many_materials_run_refuted : forall NODES WGHTS ENDVALS DERVALS SIG inv ph Phi ode svd of inverse nanq tol par0 M1 team speed fuel,
  (forall m g k dt, fst (team m g k dt) = 3) ->
  let fill := run_fill one_level (run_star one_level false true (1 / 100000000) inverse nanq of 1) [3] [1%R] [mkmatpar par0 false; M1] in
  configured one_level Phi true 0 [3] (fun _ => 0) [1%R] team /\ length (pair_field 3) = 3 /\
  exists w, program one_level NODES WGHTS ENDVALS DERVALS SIG 1 100000 (1 / 100) inv (fun _ _ x => x) ph (fun _ => None) Phi (fun _ _ => true) ode true true 0 [3] (fun _ => 0) [1%R] team
      svd speed fill (fun _ => false) false (1 / 2) (1 / 2) tol [mkmatpar par0 false; M1] (S fuel) (pair_field 3) = UB w.
Proof.
  intros NODES WGHTS ENDVALS DERVALS SIG inv ph Phi ode svd of inverse nanq tol par0 M1 team speed fuel T fill. split; [apply pair_configured; [lia|exact T]|]. split; [reflexivity|].
  set (star := run_star one_level false true (1 / 100000000) inverse nanq of 1) in *.
  assert (X : exists w, fill [pair_field 3; pair_field 3] [repeat true 3; repeat true 3] (pair_field 3) 0%R = UB w).
  { destruct (ghost_cells_1d_overrun one_level star (mkmatpar par0 false) M1 0 3 1 1 true (fun i => nth i (pair_field 3) (fun _ => 0%R)) eq_refl) with
      (g0 := cells_buf (pair_field 3)) (g1 := cells_buf (pair_field 3)) (k0 := fun i => nth i (repeat true 3) false) (k1 := fun i => nth i (repeat true 3) false) (mat := 0) (Mp := mkmatpar par0 false) as [w E];
      try reflexivity; try (cbn; lia); try lra.
    - unfold maxDouble. cbn [INR]. lra.
    - apply (interface_ext 3 1 true (fun i => ramp i 14)); [intros; rewrite pair_field_at by assumption; reflexivity|apply ramp_interface; lia].
    - intros i Hi. rewrite pair_field_at by exact Hi. apply ramp_eps.
    - intros. apply run_star_ok; [left; reflexivity|lia].
    - change (V one_level - 1) with 14. rewrite (fraction_ext 1 _ (fun i => ramp i 14)) by (rewrite pair_field_at by lia; reflexivity). rewrite ramp_fraction.
      unfold beyond, on_left. cbn [Nat.eqb]. destruct (Rlt_dec (1 / 2) (1 / 2)); [lra|lia].
    - exists w. unfold fill, run_fill. change (length (pair_field 3)) with 3. cbn [map]. rewrite E. reflexivity. }
  destruct X as [w E]. exists w. unfold program, iterator. cbn [IterModel.run init s_t]. destruct (Rlt_dec 0 (1 / 2)) as [_|Y]; [|lra].
  rewrite mturn by (cbn; lia). match goal with |- context [fill ?a ?b ?c ?d] => change (fill a b c d) with (fill [pair_field 3; pair_field 3] [repeat true 3; repeat true 3] (pair_field 3) 0%R) end.
  rewrite E. reflexivity.
Qed.
Print Assumptions many_materials_run_refuted.
