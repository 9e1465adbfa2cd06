(** C101. How fast signals travel: in a run of n turns a cell feels what is at most n N cells away, if nothing that looks at the whole grid (the time step, the test for contortion) makes a difference. *)
From Coq Require Import Reals Lia Lra ZArith.
From Verif Require Import FmmModel FmmSpec LevelSetModel FillModel FillProof3 FillProps MFillSpec MFillProof2 MFillProps MRunModel MRunProof MRunProof2 MRunProps 
  Base Options Sum Mat3 EqModel FvModel FvBody FvSpec PolyModel WenoModel WenoSpec WenoProof WenoProps DgModel DgSpec DgProof2 DgProps GridModel GridSpec GridProof GridProps StepperModel AderModel
  UtilsModel UtilsProof UtilsProps IterModel IterSpec IterProof2 IterProps Split3Props SafeProof RunModel RunProof RunProof2 RunProps RunProof3 RunProof4 Run2Props RefSpec RefProof RefProof3 RefProof4 RefProof5 RefProps MirrorProof5 AderProof3 AderProof4 RestSpec RestProof RestProof2 RestProof3 RestProof4 RestProof5 RestProps SymGasProps HandProps FvProof WenoProof ThreadProps SignalProof.
From Verif Require MirrorProps.
Import List ListNotations.
Open Scope string_scope.
Open Scope nat_scope.


Section Signals.
Variable o : options.
Variables NODES WGHTS : nat -> R.
Variable ENDVALS DERVALS : nat -> nat -> R.
Variables (SIG : nat -> nat -> R) (LAMS LAMC EPS : R) (inv : stencil -> (nat -> R) -> nat -> R).
Variable wallf : nat -> nat -> num -> num.
Variable ph : matpar -> phys.
Variable prim : matpar -> option ((num -> num) * (num -> num)).
Variable Phi : matpar -> R -> nat -> list num -> res (option (nat -> option nodal)).
Variable valid : matpar -> nodal -> bool.
Variable ode : matpar -> R -> num -> num.
Variables (SPLIT HALF_STEP : bool) (FLUX : nat) (bt : nat -> nat) (dX : list R).
Variable svd : mat3 -> vec3 * mat3.
Variable speed : vec -> nat -> matpar -> option R.
Variable nan : grid -> bool.
Variable ROT : bool.
Variables (CFL tf tol : R) (m : matpar).
Notation team_type := (matpar -> grid -> list bool -> R -> nat * list nat).
Notation fill_type := (list grid -> list (list bool) -> grid -> R -> res (grid * list grid * list (list bool))).
Notation cells nX := (fold_right Nat.mul 1 nX).
Notation advance nX team := (run_advance o NODES WGHTS ENDVALS DERVALS SIG LAMS LAMC EPS inv wallf ph prim Phi valid ode SPLIT HALF_STEP FLUX nX bt dX team).
Notation conf nX team := (configured o Phi SPLIT FLUX nX bt dX team).
Notation fin nX team := (finishing o NODES WGHTS ENDVALS DERVALS SIG LAMS LAMC EPS inv wallf ph prim Phi valid ode SPLIT HALF_STEP FLUX nX bt dX team).
Notation ready nX := (ready o SIG LAMS LAMC EPS inv wallf prim nX bt m).
Notation met nX := (met o NODES WGHTS ENDVALS DERVALS SIG LAMS LAMC EPS inv wallf ph prim Phi valid ode SPLIT HALF_STEP FLUX nX bt dX m).
Notation decided_by nX team := (decided_by o NODES WGHTS ENDVALS DERVALS SIG LAMS LAMC EPS inv wallf ph prim Phi valid ode SPLIT HALF_STEP FLUX nX bt dX team).
Notation handed nX team fill u := (handed o svd speed fill (advance nX team) nan ROT dX CFL tf tol m (init [m] u)).
Notation tested nX team fill u := (tested o svd speed fill (advance nX team) nan ROT dX CFL tf tol m (init [m] u)).
(** after n turns the run that begins with u is in the state s *)
Notation passes nX team fill u n s := (passes o svd speed fill (advance nX team) nan ROT dX CFL tf tol m (init [m] u) n s).
Notation cell c g := (nth c g (fun _ : nat => 0%R)).

(** A run in which the functions handed over give numbers at the states met, and no state is found contorted. *)
Record regular (nX : list nat) (team : team_type) (fill : fill_type) (u : grid) : Prop := {
  rg_conf : conf nX team;
  rg_fin : fin nX team;
  rg_size : length u = cells nX;
  rg_met : forall g dt, handed nX team fill u g dt -> met nX g (repeat true (cells nX)) dt;
  rg_flat : forall g, tested nX team fill u g -> contorted o svd tol g = Ok false }.
(** Two runs whose clocks show the same after every turn, up to the n-th. *)
Definition in_time (nX : list nat) (team team' : team_type) (fill fill' : fill_type) (u u' : grid) (n : nat) : Prop :=
  forall j s s', j <= n -> passes nX team fill u j s -> passes nX team' fill' u' j s' -> s_t s = s_t s'.

(** what a cell may feel after n steps *)
Fixpoint felt (near : nat -> nat -> Prop) (n c i : nat) : Prop :=
  match n with 0 => i = c | S n => exists j, near c j /\ felt near n j i end.

Lemma nth_error_cell (g : grid) c : c < length g -> nth_error g c = Some (cell c g).
Proof using. intros H. apply nth_error_nth'. exact H. Qed.
Lemma advance_length nX team g dt h : conf nX team -> VISCOUS o = true -> length g = cells nX -> advance nX team m g (repeat true (cells nX)) dt = Ok h -> length h = cells nX.
Proof using.
  intros HC HV Lg EA. pose proof HC as [C1 C2 C3 C4 C5].
  assert (AR : (exists g', advance nX team m g (repeat true (cells nX)) dt = Ok g' /\ length g' = length g) \/ advance nX team m g (repeat true (cells nX)) dt = Throw "NaN" \/ advance nX team m g (repeat true (cells nX)) dt = NoFuel)
    by (apply advance_returns; try assumption; rewrite ?repeat_length, (cells_ext o nX C2); auto).
  destruct AR as [(g' & E & L)|[E|E]]; rewrite EA in E; try discriminate. injection E as <-. lia.
Qed.

Section Pair.
Variables (nX : list nat) (team team' : team_type) (fill fill' : fill_type) (u u' : grid) (nodes : list R) (bs : list poly).
Hypothesis HV : VISCOUS o = true.
Hypothesis HL : LSET o = 0.
Hypothesis HM : mp_void m = false.
Hypothesis HR : ready nX nodes bs.
Hypothesis R1 : regular nX team fill u.
Hypothesis R2 : regular nX team' fill' u'.
Variables (near inside : nat -> nat -> Prop).
Hypothesis HN : forall n c, inside (S n) c -> c < cells nX /\ (exists masked, decided_by nX team (near c) masked c team') /\ forall j, near c j -> inside n j.
Lemma passes_shape tm fl v n s : passes nX tm fl v n s -> length v = cells nX -> (exists g0, s_grids s = [g0]) /\ s_masks s = [repeat true (cells nX)] /\ s_count s = n.
Proof using HL HM.
  intros H Lv. induction H as [|n a b H IH La Ea].
  - cbn [init s_grids s_masks s_count repeat length]. rewrite Lv. eauto.
  - destruct IH as (G & K & C). destruct (turn_inl o svd speed fl (advance nX tm) nan ROT dX CFL tf tol m HL HM a b _ G K La Ea) as (dt & u1 & u2 & _ & _ & _ & _ & _ & _ & C' & G' & K').
    split; [exact G'|]. split; [exact K'|]. now rewrite C', C.
Qed.
Lemma feels : forall n s s', passes nX team fill u n s -> passes nX team' fill' u' n s' -> in_time nX team team' fill fill' u u' n ->
  forall c, inside n c -> (forall i, felt near n c i -> cell i u = cell i u') -> cell c (s_u s) = cell c (s_u s').
Proof using HV HL HM HR R1 R2 HN.
  induction n as [|n IH]; intros s s' P P' HT c Hc HF.
  - inversion P; subst. inversion P'; subst. cbn [init s_u]. apply HF. reflexivity.
  - inversion P as [|n0 a b Pa La Ea X1 X2]. inversion P' as [|n0' a' b' Pa' La' Ea' X1' X2']. subst n0 n0' b b'.
    destruct R1 as [C1 F1 L1 M1 K1], R2 as [C2 F2 L2 M2 K2].
    destruct (passes_shape _ _ _ _ _ Pa L1) as (G & K & Ct). destruct (passes_shape _ _ _ _ _ Pa' L2) as (G' & K' & Ct').
    destruct (turn_inl o svd speed fill (advance nX team) nan ROT dX CFL tf tol m HL HM a s _ G K La Ea) as (dt & u1 & u2 & H1 & A1 & D1 & T1 & Q1 & S1 & _).
    destruct (turn_inl o svd speed fill' (advance nX team') nan ROT dX CFL tf tol m HL HM a' s' _ G' K' La' Ea') as (dt' & u1' & u2' & H2 & A2 & D2 & T2 & Q2 & S2 & _).
    assert (ED : dt' = dt). { pose proof (HT n a a' ltac:(lia) Pa Pa') as E1. pose proof (HT (S n) s s' ltac:(lia) P P') as E2. lra. }
    subst dt'.
    pose proof (passes_handed _ _ _ _ _ _ _ _ _ _ _ _ _ _ _ _ _ Pa H1) as H1'. pose proof (passes_handed _ _ _ _ _ _ _ _ _ _ _ _ _ _ _ _ _ Pa' H2) as H2'.
    pose proof (passes_tested _ _ _ _ _ _ _ _ _ _ _ _ _ _ _ _ Pa T1) as T1'. pose proof (passes_tested _ _ _ _ _ _ _ _ _ _ _ _ _ _ _ _ Pa' T2) as T2'.
    pose proof (handed_length o NODES WGHTS ENDVALS DERVALS SIG LAMS LAMC EPS inv wallf ph prim Phi valid ode SPLIT HALF_STEP FLUX nX bt dX team svd speed fill nan ROT CFL tf tol m u C1 HV HL HM L1 _ _ H1') as La1.
    pose proof (handed_length o NODES WGHTS ENDVALS DERVALS SIG LAMS LAMC EPS inv wallf ph prim Phi valid ode SPLIT HALF_STEP FLUX nX bt dX team' svd speed fill' nan ROT CFL tf tol m u' C2 HV HL HM L2 _ _ H2') as La2.
    destruct (HN n c Hc) as (Bc & (masked & HD) & HI).
    destruct (HD m (s_u a) (s_u a') (repeat true (cells nX)) (repeat true (cells nX)) dt nodes bs HR (M1 _ _ H1') (M2 _ _ H2') La1 La2 (repeat_length _ _) (repeat_length _ _)) as (h & h' & B1 & B2 & E).
    + intros i Hi. apply (IH a a' Pa Pa').
      * intros j x x' Hj. apply HT. lia.
      * apply HI. exact Hi.
      * intros j Hj. apply HF. exists i. auto.
    + reflexivity.
    + rewrite A1 in B1. injection B1 as <-. rewrite A2 in B2. injection B2 as <-.
      pose proof (advance_length nX team _ _ _ C1 HV La1 A1) as Lu1. pose proof (advance_length nX team' _ _ _ C2 HV La2 A2) as Lu2.
      assert (NE : nth_error u1 c = nth_error u1' c) by (rewrite !nth_error_cell by lia; f_equal; exact E).
      rewrite Ct in D1, Q1. rewrite Ct' in D2, Q2.
      pose proof (post_local o svd ROT tol m (S n) u1 u1' u2 u2' (s_u s) (s_u s') c D1 D2 (K1 _ T1') (K2 _ T2') Q1 Q2 NE) as NN.
      destruct (nth_error (s_u s) c) as [q|] eqn:N1.
      * symmetry in NN. rewrite (nth_error_nth _ _ _ N1), (nth_error_nth _ _ _ NN). reflexivity.
      * symmetry in NN. apply nth_error_None in N1, NN. rewrite !nth_overflow by assumption. reflexivity.
Qed.
End Pair.

(** On a line: after n turns cell c is the same in both runs, if the initial states agree up to n N cells from it. Next to a periodic boundary the cell is to be that far from the boundary. *)
Theorem signal_speed_1d_partial nx (team team' : team_type) (fill fill' : fill_type) (u u' : grid) nodes bs n s s' c : VISCOUS o = true -> LSET o = 0 -> mp_void m = false -> ready [nx] nodes bs ->
  regular [nx] team fill u -> regular [nx] team' fill' u' -> passes [nx] team fill u n s -> passes [nx] team' fill' u' n s' -> in_time [nx] team team' fill fill' u u' n ->
  c < nx -> (bt 0 = 1 -> n * N o <= c) -> (bt 1 = 1 -> c + n * N o < nx) ->
  (forall i, i < nx -> c <= i + n * N o -> i <= c + n * N o -> cell i u = cell i u') -> cell c (s_u s) = cell c (s_u s').
Proof using.
  intros HV HL HM HR R1 R2 P P' HT Hc B0 B1 HU. pose proof R1 as [C1 F1 _ _ _]. pose proof R2 as [C2 F2 _ _ _].
  apply (feels [nx] team team' fill fill' u u' nodes bs HV HL HM HR R1 R2 (fun c i => i < nx /\ c <= i + N o /\ i <= c + N o) (fun n c => c < nx /\ (bt 0 = 1 -> n * N o <= c) /\ (bt 1 = 1 -> c + n * N o < nx))) with (n := n); try assumption.
  - clear - C1 F1 C2 F2. intros n c (Hc & B0 & B1). split; [cbn [fold_right]; lia|]. split.
    + eexists. apply domain_of_dependence_1d; try assumption; intros B; [specialize (B0 B)|specialize (B1 B)]; cbn [Nat.mul] in *; lia.
    + intros j (J1 & J2 & J3). split; [exact J1|]. split; intros B; [specialize (B0 B)|specialize (B1 B)]; cbn [Nat.mul] in *; lia.
  - auto.
  - assert (X : forall n c i, c < nx -> felt (fun c i => i < nx /\ c <= i + N o /\ i <= c + N o) n c i -> i < nx /\ c <= i + n * N o /\ i <= c + n * N o).
    { clear. induction n as [|n IH]; intros c i Hc H; cbn [felt Nat.mul] in *; [lia|]. destruct H as (j & (J1 & J2 & J3) & H). specialize (IH j i J1 H). lia. }
    intros i Hi. destruct (X n c i Hc Hi) as (I1 & I2 & I3). apply HU; assumption.
Qed.
(** In a plane: up to n N cells along each axis. *)
Theorem signal_speed_2d_partial nx ny (team team' : team_type) (fill fill' : fill_type) (u u' : grid) nodes bs n s s' a b : VISCOUS o = true -> NO_CORNERS o = false -> LSET o = 0 -> mp_void m = false -> ready [nx; ny] nodes bs ->
  regular [nx; ny] team fill u -> regular [nx; ny] team' fill' u' -> passes [nx; ny] team fill u n s -> passes [nx; ny] team' fill' u' n s' -> in_time [nx; ny] team team' fill fill' u u' n ->
  a < nx -> b < ny -> (bt 0 = 1 -> n * N o <= a) -> (bt 1 = 1 -> a + n * N o < nx) -> (bt 2 = 1 -> n * N o <= b) -> (bt 3 = 1 -> b + n * N o < ny) ->
  (forall p q, p < nx -> q < ny -> a <= p + n * N o -> p <= a + n * N o -> b <= q + n * N o -> q <= b + n * N o -> cell (p * ny + q) u = cell (p * ny + q) u') ->
  cell (a * ny + b) (s_u s) = cell (a * ny + b) (s_u s').
Proof using.
  intros HV HNC HL HM HR R1 R2 P P' HT Ha Hb B0 B1 B2 B3 HU. pose proof R1 as [C1 F1 _ _ _]. pose proof R2 as [C2 F2 _ _ _].
  set (close k a p := a <= p + k /\ p <= a + k).
  apply (feels [nx; ny] team team' fill fill' u u' nodes bs HV HL HM HR R1 R2 (fun c i => exists p q, i = p * ny + q /\ p < nx /\ q < ny /\ close (N o) (c / ny) p /\ close (N o) (c mod ny) q)
    (fun n c => exists a b, c = a * ny + b /\ a < nx /\ b < ny /\ (bt 0 = 1 -> n * N o <= a) /\ (bt 1 = 1 -> a + n * N o < nx) /\ (bt 2 = 1 -> n * N o <= b) /\ (bt 3 = 1 -> b + n * N o < ny))) with (n := n); try assumption.
  - clear - C1 F1 C2 F2 HNC. intros n c (a & b & -> & Ha & Hb & B0 & B1 & B2 & B3). split; [cbn [fold_right]; rewrite Nat.mul_1_r; apply pack_bound; assumption|]. destruct (divmod ny a b Hb) as [-> ->]. split.
    + eexists. intros m' g g' k k' dt nodes bs HR M1 M2 L1 L2 L3 L4 HX. eapply domain_of_dependence_2d with (a := a) (b := b); try eassumption; try (intros B; specialize (B0 B) || specialize (B1 B) || specialize (B2 B) || specialize (B3 B); cbn [Nat.mul] in *; lia).
      intros i (p & q & -> & Hp & Hq & Cp & Cq & _). apply HX. exists p, q. unfold close. auto.
    + unfold close. intros j (p & q & -> & Hp & Hq & Cp & Cq). exists p, q. split; [reflexivity|]. split; [exact Hp|]. split; [exact Hq|].
      split; [|split; [|split]]; intros B; [specialize (B0 B)|specialize (B1 B)|specialize (B2 B)|specialize (B3 B)]; cbn [Nat.mul] in *; lia.
  - exists a, b. auto 10.
  - assert (X : forall n a b i, a < nx -> b < ny -> felt (fun c i => exists p q, i = p * ny + q /\ p < nx /\ q < ny /\ close (N o) (c / ny) p /\ close (N o) (c mod ny) q) n (a * ny + b) i ->
      exists p q, i = p * ny + q /\ p < nx /\ q < ny /\ close (n * N o) a p /\ close (n * N o) b q).
    { clear. unfold close. induction n as [|n IH]; intros a b i Ha Hb H; cbn [felt Nat.mul] in *.
      - exists a, b. split; [exact H|]. lia.
      - destruct H as (j & (p & q & -> & Hp & Hq & Cp & Cq) & H). destruct (divmod ny a b Hb) as [D1 D2]. rewrite D1 in Cp. rewrite D2 in Cq.
        destruct (IH p q i Hp Hq H) as (p' & q' & -> & Hp' & Hq' & Cp' & Cq'). exists p', q'. split; [reflexivity|]. lia. }
    intros i Hi. destruct (X n a b i Ha Hb Hi) as (p & q & -> & Hp & Hq & [P1 P2] & [Q1 Q2]). apply HU; assumption.
Qed.
End Signals.

(** With wave speeds that are the same everywhere, all runs of grids of one size are in time. *)
Lemma constant_in_time o NODES WGHTS ENDVALS DERVALS SIG LAMS LAMC EPS inv wallf ph prim Phi valid ode SPLIT HALF_STEP FLUX bt dX svd speed nan ROT CFL tf tol m nX team team' fill fill' (u u' : grid) c0 n : VISCOUS o = true -> LSET o = 0 -> mp_void m = false ->
  configured o Phi SPLIT FLUX nX bt dX team -> configured o Phi SPLIT FLUX nX bt dX team' -> length u = fold_right Nat.mul 1 nX -> length u' = fold_right Nat.mul 1 nX -> (forall q d, speed q d m = Some c0) ->
  in_time o NODES WGHTS ENDVALS DERVALS SIG LAMS LAMC EPS inv wallf ph prim Phi valid ode SPLIT HALF_STEP FLUX bt dX svd speed nan ROT CFL tf tol m nX team team' fill fill' u u' n.
Proof.
  intros HV HL HM HC HC' Lu Lu' HS j s s' _. revert s s'. induction j as [|j IH]; intros s s' P P'.
  - inversion P; subst. inversion P'; subst. reflexivity.
  - inversion P as [|n0 a b Pa La Ea X1 X2]. inversion P' as [|n0' a' b' Pa' La' Ea' X1' X2']. subst n0 n0' b b'. pose proof (IH a a' Pa Pa') as ET.
    destruct (passes_shape o NODES WGHTS ENDVALS DERVALS SIG LAMS LAMC EPS inv wallf ph prim Phi valid ode SPLIT HALF_STEP FLUX bt dX svd speed nan ROT CFL tf tol m nX HL HM _ _ _ _ _ Pa Lu) as (G & K & Ct).
    destruct (passes_shape o NODES WGHTS ENDVALS DERVALS SIG LAMS LAMC EPS inv wallf ph prim Phi valid ode SPLIT HALF_STEP FLUX bt dX svd speed nan ROT CFL tf tol m nX HL HM _ _ _ _ _ Pa' Lu') as (G' & K' & Ct').
    destruct (turn_inl _ _ _ _ _ _ _ _ _ _ _ _ HL HM a s _ G K La Ea) as (dt & u1 & u2 & H1 & _ & _ & _ & _ & S1 & _).
    destruct (turn_inl _ _ _ _ _ _ _ _ _ _ _ _ HL HM a' s' _ G' K' La' Ea') as (dt' & u1' & u2' & H2 & _ & _ & _ & _ & S2 & _).
    pose proof (handed_length o NODES WGHTS ENDVALS DERVALS SIG LAMS LAMC EPS inv wallf ph prim Phi valid ode SPLIT HALF_STEP FLUX nX bt dX team svd speed fill nan ROT CFL tf tol m u HC HV HL HM Lu _ _ (passes_handed _ _ _ _ _ _ _ _ _ _ _ _ _ _ _ _ _ Pa H1)) as L1.
    pose proof (handed_length o NODES WGHTS ENDVALS DERVALS SIG LAMS LAMC EPS inv wallf ph prim Phi valid ode SPLIT HALF_STEP FLUX nX bt dX team' svd speed fill' nan ROT CFL tf tol m u' HC' HV HL HM Lu' _ _ (passes_handed _ _ _ _ _ _ _ _ _ _ _ _ _ _ _ _ _ Pa' H2)) as L2.
    destruct (turn_time _ _ _ _ _ _ _ _ _ _ _ _ HL HM a s _ G K Ea) as (d & D & T). destruct (turn_time _ _ _ _ _ _ _ _ _ _ _ _ HL HM a' s' _ G' K' Ea') as (d' & D' & T').
    rewrite (timestep_constant o speed dX CFL tf m HL HM c0 (s_u a) (s_u a')) in D by (try exact HS; lia). rewrite <- ET, Ct', <- Ct in D'. rewrite D in D'. injection D' as <-. rewrite T, T', ET. reflexivity.
Qed.

(** singular values as the loop asks for them *)
Definition loop_svd (A : mat3) : vec3 * mat3 := (snd (fst (still_svd A)), snd (still_svd A)).
Lemma still_not_contorted (g : grid) tol : (0 <= tol)%R -> contorted ex_opt loop_svd tol g = Ok false.
Proof.
  intros Ht. transitivity (Ok (existsb (contorted_cell loop_svd tol) g)); [reflexivity|]. f_equal. induction g as [|q g IH]; cbn [existsb]; [reflexivity|]. rewrite IH, Bool.orb_false_r.
  unfold contorted_cell, loop_svd, still_svd. cbn [fst snd]. set (a := Rabs (PhysModel.get_A q 0 0)). destruct (Req_EM_T (a * a * a) 0) as [E|E]; [reflexivity|]. rewrite cbrt_of_cube. destruct (Rlt_dec _ _) as [L|L]; [|reflexivity]. exfalso.
  assert (Ha : (a <> 0)%R) by (intros X; apply E; rewrite X; ring). replace ((a * a / (a * a) + a * a / (a * a) + a * a / (a * a)) / 3 - 1)%R with 0%R in L by (field; exact Ha). lra.
Qed.
(** The gas of C99, Roe's flux, the relaxation of the code, a line with open ends: two runs whose initial densities differ in the last cell, on five threads and on one, agree in the first cell after a turn. *)
Definition other_line : grid := [still_cell 1 1; still_cell 2 3; still_cell 2 (-1); still_cell (3 / 2) 2].
Example signal_case Phi fill fill' tol : (0 <= tol)%R -> let m := MirrorProps.ex_gas in
  exists nodes bs w inv SIG team team', (forall m g k dt, fst (team m g k dt) = 5) /\ (forall m g k dt, fst (team' m g k dt) = 1) /\
  let ph := gas_phys ex_opt MirrorProps.ex_rates (fun _ => (0, 0, 0)%R) MirrorProps.ex_specrad still_eigabs in let ode := gas_ode ex_opt MirrorProps.ex_rates (fun _ => (0, 0, 0)%R) None still_svd in
  let adv := run_advance ex_opt (fun k => nth k nodes 0%R) w (end_values bs) (Dv bs nodes) SIG 1 100000 (1 / 100) inv (gas_wall ex_opt (fun q => q)) ph (fun _ => None) Phi (fun _ _ => true) ode true true 1 [4] (fun _ => 0) [1%R] in
  let passed team fill u := SignalProof.passes ex_opt loop_svd (fun _ _ _ => Some 1%R) fill (adv team) (fun _ => false) false [1%R] (1 / 2) 1 tol m (init [m] u) 1 in
  nth 3 still_line (fun _ => 0%R) 0 <> nth 3 other_line (fun _ => 0%R) 0 /\
  exists s s', passed team fill still_line s /\ passed team' fill' other_line s' /\ nth 0 (s_u s) (fun _ => 0%R) = nth 0 (s_u s') (fun _ => 0%R).
Proof.
  intros Ht m. destruct dg_basis_hyps as [nodes [bs [w [G L]]]]. pose proof G as [Dn [Bn _]]. destruct (weno_hyps nodes Dn ltac:(lia)) as [bs' [inv [SIG HW]]].
  pose proof HW as [_ [Bn' _]]. rewrite Bn in Bn'. injection Bn' as <-.
  assert (C : forall team : matpar -> grid -> list bool -> R -> nat * list nat, (forall m g k dt, 0 < fst (team m g k dt)) -> configured ex_opt Phi true 1 [4] (fun _ => 0) [1%R] team).
  { intros team T. split.
    - split; [reflexivity|]. split; [lia|]. split; cbn; lra.
    - left. exists 4. split; [reflexivity|]. cbn. lia.
    - intros k Hk. lia.
    - intros. apply T.
    - discriminate. }
  set (ode := gas_ode ex_opt MirrorProps.ex_rates (fun _ => (0, 0, 0)%R) None still_svd). set (ph := gas_phys ex_opt MirrorProps.ex_rates (fun _ => (0, 0, 0)%R) MirrorProps.ex_specrad still_eigabs).
  assert (FE : forall p, 0 < p -> exists team, (forall m g k dt, fst (team m g k dt) = p) /\
     finishing ex_opt (fun k => nth k nodes 0%R) w (end_values bs) (Dv bs nodes) SIG 1 100000 (1 / 100) inv (gas_wall ex_opt (fun q => q)) ph (fun _ => None) Phi (fun _ _ => true) ode true true 1 [4] (fun _ => 0) [1%R] team).
  { intros p Hp. apply (finishing_exists ex_opt (fun k => nth k nodes 0%R) w (end_values bs) (Dv bs nodes) SIG 1 100000 (1 / 100) inv (gas_wall ex_opt (fun q => q)) ph (fun _ => None) Phi (fun _ _ => true) ode true true 1 [4] (fun _ => 0) [1%R]
      (fun _ _ _ _ => p)); [auto|]. apply (C (fun _ _ _ _ => (p, []))). intros. exact Hp. }
  destruct (FE 5 ltac:(lia)) as (team & T & F). destruct (FE 1 ltac:(lia)) as (team' & T' & F'). exists nodes, bs, w, inv, SIG, team, team'. split; [exact T|]. split; [exact T'|].
  pose proof (C team ltac:(intros; rewrite T; lia)) as CT. pose proof (C team' ltac:(intros; rewrite T'; lia)) as CT'.
  assert (SG : still_gas ex_opt nodes bs w SIG 1 100000 (1 / 100) inv still_svd Phi (fun _ _ => true) true true [4] (fun _ => 0) m 7).
  { split; try reflexivity; try assumption; try discriminate; auto. intros _. exact still_svd_right. }
  assert (KK : kills_kernel (fun r : R => (0 < r)%R) ex_opt (ph m) 7).
  { intros M x _ Hx k. cbn. unfold still_eigabs. destruct (Nat.ltb_spec k 14) as [Hk|Hk]; [|reflexivity]. change (V ex_opt) with 14 in Hx. rewrite (Hx k Hk). apply Rabs_R0. }
  pose proof CT as [_ GD _ _ _].
  assert (RG : forall tm fl u, configured ex_opt Phi true 1 [4] (fun _ => 0) [1%R] tm -> finishing ex_opt (fun k => nth k nodes 0%R) w (end_values bs) (Dv bs nodes) SIG 1 100000 (1 / 100) inv (gas_wall ex_opt (fun q => q)) ph (fun _ => None) Phi (fun _ _ => true) ode true true 1 [4] (fun _ => 0) [1%R] tm ->
    length u = 4 -> Forall (resting 7) u -> varied [4] u ->
    regular ex_opt (fun k => nth k nodes 0%R) w (end_values bs) (Dv bs nodes) SIG 1 100000 (1 / 100) inv (gas_wall ex_opt (fun q => q)) ph (fun _ => None) Phi (fun _ _ => true) ode true true 1 (fun _ => 0) [1%R] loop_svd (fun _ _ _ => Some 1%R) (fun _ => false) false (1 / 2) 1 tol m [4] tm fl u /\
    exists s, SignalProof.passes ex_opt loop_svd (fun _ _ _ => Some 1%R) fl (run_advance ex_opt (fun k => nth k nodes 0%R) w (end_values bs) (Dv bs nodes) SIG 1 100000 (1 / 100) inv (gas_wall ex_opt (fun q => q)) ph (fun _ => None) Phi (fun _ _ => true) ode true true 1 [4] (fun _ => 0) [1%R] tm)
      (fun _ => false) false [1%R] (1 / 2) 1 tol m (init [m] u) 1 s).
  { intros tm fl u Cm Fm Lu RE VA.
    pose proof (gas_ready ex_opt nodes bs w SIG 1 100000 (1 / 100) inv (fun q => q) still_svd Phi (fun _ _ => true) true true 1 [4] (fun _ => 0) [1%R] tm m 7 SG Cm) as RD.
    pose proof (rest_handed_met ex_opt nodes bs w SIG 1 100000 (1 / 100) inv (gas_wall ex_opt (fun q => q)) ph (fun _ => None) Phi (fun _ _ => true) ode true true 1 [4] (fun _ => 0) [1%R] tm (fun r : R => (0 < r)%R) loop_svd (fun _ _ _ => Some 1%R) fl (fun _ => false)
      (1 / 2) 1 tol m 7 (p_still m 7) u G ltac:(intros; lra) eq_refl eq_refl) as MH.
    split.
    - split; [exact Cm|exact Fm|exact Lu| |].
      + apply MH; try assumption; try reflexivity; try discriminate.
        * apply (gas_sharp ex_opt nodes bs w SIG 1 100000 (1 / 100) inv MirrorProps.ex_rates (fun _ => (0, 0, 0)%R) MirrorProps.ex_specrad still_eigabs still_svd Phi (fun _ _ => true) true true 1 [4] (fun _ => 0) m 7 SG); try assumption; try (left; reflexivity); cbn; lra.
        * apply (gas_equilibrium ex_opt nodes bs w SIG 1 100000 (1 / 100) inv (fun q => q) MirrorProps.ex_rates (fun _ => (0, 0, 0)%R) MirrorProps.ex_specrad still_eigabs None still_svd Phi (fun _ _ => true) true true [4] (fun _ => 0) m 7 SG GD).
        * apply (gas_solid ex_opt nodes bs w SIG 1 100000 (1 / 100) inv (fun q => q) still_svd Phi (fun _ _ => true) true true [4] (fun _ => 0) m 7 u SG GD); assumption.
      + intros g _. apply still_not_contorted. exact Ht.
    - destruct (gas_run_ends ex_opt nodes bs w SIG 1 100000 (1 / 100) inv (fun q => q) MirrorProps.ex_rates (fun _ => (0, 0, 0)%R) MirrorProps.ex_specrad still_eigabs None still_svd Phi (fun _ _ => true) true true 1 [4] (fun _ => 0) [1%R] tm m 7
        loop_svd (fun _ _ _ => Some 1%R) fl (fun _ => false) (1 / 2) 1 tol 1 11 u) as (s & E & _); try reflexivity; try (cbn; lra); try assumption; try (left; reflexivity).
      + split; [lra|]. intros q m' c H. cbn [speed_sum]. specialize (H 0 ltac:(cbn; lia)). injection H as H. rewrite <- H. lra.
      + exact (run_turns ex_opt loop_svd (fun _ _ _ => Some 1%R) fl _ (fun _ => false) false [1%R] (1 / 2) 1 tol m 11 _ s E ltac:(cbn; lra)). }
  assert (RE : Forall (resting 7) still_line) by (repeat (constructor; [apply still_cell_rests|]); constructor).
  assert (VA : varied [4] still_line) by (exists 1%R, 2%R; split; [lra|]; split; [cbn; lra|]; repeat (constructor; [cbn; lra|]); constructor).
  assert (RE' : Forall (resting 7) other_line) by (repeat (constructor; [apply still_cell_rests|]); constructor).
  assert (VA' : varied [4] other_line) by (exists 1%R, 2%R; split; [lra|]; split; [cbn; lra|]; repeat (constructor; [cbn; lra|]); constructor).
  destruct (RG team fill still_line CT F eq_refl RE VA) as [R1 (s & P)]. destruct (RG team' fill' other_line CT' F' eq_refl RE' VA') as [R2 (s' & P')].
  split; [cbn; lra|]. exists s, s'. split; [exact P|]. split; [exact P'|].
  apply (signal_speed_1d_partial ex_opt (fun k => nth k nodes 0%R) w (end_values bs) (Dv bs nodes) SIG 1 100000 (1 / 100) inv (gas_wall ex_opt (fun q => q)) ph (fun _ => None) Phi (fun _ _ => true) ode true true 1 (fun _ => 0) [1%R] loop_svd (fun _ _ _ => Some 1%R) (fun _ => false) false (1 / 2) 1 tol m
    4 team team' fill fill' still_line other_line nodes bs 1 s s' 0); try reflexivity; try assumption; try discriminate; try lia.
  - exact (gas_ready ex_opt nodes bs w SIG 1 100000 (1 / 100) inv (fun q => q) still_svd Phi (fun _ _ => true) true true 1 [4] (fun _ => 0) [1%R] team m 7 SG CT).
  - apply constant_in_time with (c0 := 1%R); try assumption; reflexivity.
  - change (N ex_opt) with 2. intros i Hi _ H2. destruct i as [|[|[|i]]]; try reflexivity. lia.
Qed.

(** Without that it is false: a cell that is found contorted has the distortion reset everywhere. The loop around a step in which nothing happens, two cells of unit density, singular values of diagonal matrices taken right: the fields differ in the second cell, the time step is
    the same, and the distortion of the first cell is kept in one run and replaced by the identity in the other. *)
Definition diagonal_cell (a b c : R) : vec := fun k => if (k =? 0) || (k =? 1) then 1%R else if k =? 5 then a else if k =? 9 then b else if k =? 13 then c else 0%R.
Definition right_on_diagonals (svd : mat3 -> vec3 * mat3) : Prop :=
  forall A, (forall i j, i < 3 -> j < 3 -> i <> j -> A i j = 0%R) -> (A 0%nat 0%nat >= A 1%nat 1%nat)%R -> (A 1%nat 1%nat >= A 2%nat 2%nat)%R -> (A 2%nat 2%nat > 0)%R -> forall i, i < 3 -> fst (svd A) i = A i i.
Theorem signal_speed_refuted : forall svd fill par0, right_on_diagonals svd -> PhysModel.rho0 (PhysModel.prm par0) = 1%R -> let m := mkmatpar par0 false in
  let u last := [diagonal_cell 2 1 (1 / 2); last] in
  let after1 u s := SignalProof.passes ex_opt svd (fun _ _ _ => Some 1%R) fill (fun _ g _ _ => Ok g) (fun _ => false) false [1%R] (1 / 2) 1 1 m (init [m] u) 1 s in
  exists s s', after1 (u (diagonal_cell 2 1 (1 / 2))) s /\ after1 (u (diagonal_cell 4 1 (1 / 4))) s' /\ s_t s = s_t s' /\ nth 0 (s_u s) (fun _ => 0%R) 5 = 2%R /\ nth 0 (s_u s') (fun _ => 0%R) 5 = 1%R.
Proof.
  intros svd fill par0 HS HR m u after1.
  assert (TS : forall last, timestep (fun _ _ _ => Some 1%R) [m] [u last] [repeat true 2] [1%R] (1 / 2) 0 1 0 1 = Ok (Some (1 / 10)%R)).
  { intros last. unfold timestep, max_rate. cbn [get nth_error bind for_loop]. unfold get. cbn [nth_error bind for_loop length u m mp_void repeat]. unfold rate. cbn [rate_from smax].
    unfold PhysModel.cmax. destruct (Rlt_dec 0 (0 + 1 / 1)) as [_|X]; [|lra]. destruct (Rlt_dec (0 + 1 / 1) (0 + 1 / 1)) as [X|_]; [lra|]. destruct (Req_EM_T (0 + 1 / 1) 0) as [X|_]; [lra|]. cbn [Nat.leb].
    destruct (Rlt_dec 1 _) as [X|_]; [lra|]. do 2 f_equal. field. }
  set (q1 := fun a b c => PhysModel.setseg (diagonal_cell a b c) 5 9 (fun k => diagonal_cell a b c (5 + k)%nat * 1)%R).
  assert (RN : forall a b c i, (a * b * c = 1)%R -> renorm_cell ex_opt [m] i (diagonal_cell a b c) = Ok (q1 a b c)).
  { intros a b c i H. unfold renorm_cell. change (get [m] (get_material_index ex_opt (diagonal_cell a b c))) with (Ok m). cbn [bind]. change (mp_void m) with false. cbv iota zeta.
    change (diagonal_cell a b c 0) with 1%R. destruct (Rlt_dec 0 1) as [_|X]; [|lra]. unfold has_A. change (Nat.ltb (V ex_opt) 14) with false. cbv iota. change (PhysModel.rho0 (PhysModel.prm (mp_par m))) with (PhysModel.rho0 (PhysModel.prm par0)). rewrite HR.
    replace (1 / (1 * det3 (PhysModel.get_A (diagonal_cell a b c))))%R with 1%R; [rewrite cbrt_1; reflexivity|]. unfold det3, PhysModel.get_A, diagonal_cell. cbn [Nat.add Nat.mul Nat.eqb orb].
    match goal with |- (1 = 1 / (1 * ?d))%R => replace d with (a * b * c)%R by ring end. rewrite H. field. }
  assert (SV : forall a b c i, (a >= b)%R -> (b >= c)%R -> (c > 0)%R -> i < 3 -> fst (svd (PhysModel.get_A (q1 a b c))) i = match i with 0 => a | 1 => b | _ => c end).
  { intros a b c i Ha Hb Hc Hi. rewrite HS; try exact Hi.
    - unfold PhysModel.get_A, q1, PhysModel.setseg, diagonal_cell. destruct i as [|[|[|i]]]; try lia; cbn; ring.
    - intros p q Hp Hq Hpq. unfold PhysModel.get_A, q1, PhysModel.setseg, diagonal_cell. destruct p as [|[|[|p]]]; try lia; destruct q as [|[|[|q]]]; try lia; try (exfalso; apply Hpq; reflexivity); cbn; ring.
    - unfold PhysModel.get_A, q1, PhysModel.setseg, diagonal_cell. cbn. lra.
    - unfold PhysModel.get_A, q1, PhysModel.setseg, diagonal_cell. cbn. lra.
    - unfold PhysModel.get_A, q1, PhysModel.setseg, diagonal_cell. cbn. lra. }
  assert (CC : forall a b c, (a >= b)%R -> (b >= c)%R -> (c > 0)%R -> (a * b * c = 1)%R -> contorted_cell svd 1 (q1 a b c) = if Rlt_dec 1 ((a * a + b * b + c * c) / 3 - 1) then true else false).
  { intros a b c Ha Hb Hc H. unfold contorted_cell. rewrite !SV by (assumption || lia). rewrite H. destruct (Req_EM_T 1 0) as [X|_]; [lra|]. cbv zeta. rewrite cbrt_1.
    replace ((a * a / (1 * 1) + b * b / (1 * 1) + c * c / (1 * 1)) / 3 - 1)%R with ((a * a + b * b + c * c) / 3 - 1)%R by field. reflexivity. }
  assert (C1 : contorted_cell svd 1 (q1 2 1 (1 / 2))%R = false) by (rewrite CC by lra; destruct (Rlt_dec _ _); [lra|reflexivity]).
  assert (C2 : contorted_cell svd 1 (q1 4 1 (1 / 4))%R = true) by (rewrite CC by lra; destruct (Rlt_dec _ _); [reflexivity|lra]).
  assert (PO : forall a b c, (a * b * c = 1)%R -> post ex_opt svd false 1 m 1 (u (diagonal_cell a b c)) =
    if contorted_cell svd 1 (q1 a b c) then reset_distortion ex_opt [m] [q1 2 1 (1 / 2); q1 a b c]%R else Ok [q1 2 1 (1 / 2); q1 a b c]%R).
  { intros a b c H. unfold post, corrected. change (limit_concentration ex_opt (u (diagonal_cell a b c))) with (u (diagonal_cell a b c)). unfold renorm_distortion, u. cbn [each_cell]. rewrite !RN by (assumption || lra). cbn [bind].
    rewrite Bool.andb_false_r. cbn [bind]. unfold contorted. change (Nat.ltb (V ex_opt) 14) with false. cbn [bind existsb]. rewrite C1. cbn [orb]. rewrite Bool.orb_false_r. reflexivity. }
  assert (TU : forall last v, post ex_opt svd false 1 m 1 (u last) = Ok v -> exists s, after1 (u last) s /\ s_t s = (0 + 1 / 10)%R /\ s_u s = v).
  { intros last v E. eexists. split; [|split].
    - unfold after1. eapply SignalProof.passes_turn; [apply SignalProof.passes_start|cbn; lra|].
      rewrite (turn_single ex_opt svd (fun _ _ _ => Some 1%R) fill (fun _ g _ _ => Ok g) (fun _ => false) false [1%R] (1 / 2) 1 1 m eq_refl eq_refl (init [m] (u last)) (u last) (repeat true 2) eq_refl eq_refl).
      cbn [init s_u s_t s_count s_push s_ret]. rewrite TS. cbn [bind]. rewrite E. cbn [bind]. destruct (Rle_dec _ _) as [_|X]; [|exfalso; apply X; cbn; lra]. rewrite wr_ok by (cbn; lia). cbn [bind]. reflexivity.
    - reflexivity.
    - reflexivity. }
  assert (RS : forall q, q 0 = 1%R -> exists r, reset_cell ex_opt [m] 0 q = Ok r /\ reset_cell ex_opt [m] 1 q = Ok r /\ r 5 = 1%R).
  { intros q Hq. unfold reset_cell. change (get [m] (get_material_index ex_opt q)) with (Ok m). cbn [bind]. change (mp_void m) with false. cbv iota. unfold has_A. change (Nat.ltb (V ex_opt) 14) with false. cbv iota zeta. eexists. split; [reflexivity|]. split; [reflexivity|].
    unfold PhysModel.set1, PhysModel.setseg, upd. cbn. change (PhysModel.rho0 (PhysModel.prm par0)) with (PhysModel.rho0 (PhysModel.prm par0)). rewrite HR, Hq. replace (1 / 1)%R with 1%R by field. apply cbrt_1. }
  destruct (RS (q1 2 1 (1 / 2))%R eq_refl) as (r1 & E1 & _ & V1). destruct (RS (q1 4 1 (1 / 4))%R eq_refl) as (r2 & _ & E2 & _).
  destruct (TU (diagonal_cell 2 1 (1 / 2))%R [q1 2 1 (1 / 2); q1 2 1 (1 / 2)]%R) as (s & P & T & U); [rewrite PO by lra; rewrite C1; reflexivity|].
  destruct (TU (diagonal_cell 4 1 (1 / 4))%R [r1; r2]) as (s' & P' & T' & U').
  { rewrite PO by lra. rewrite C2. unfold reset_distortion. cbn [each_cell]. rewrite E1. cbn [bind]. rewrite E2. reflexivity. }
  exists s, s'. split; [exact P|]. split; [exact P'|]. split; [rewrite T, T'; reflexivity|]. rewrite U, U'. cbn [nth]. split; [|exact V1]. unfold q1, PhysModel.setseg, diagonal_cell. cbn. ring.
Qed.
Print Assumptions signal_speed_1d_partial.
Print Assumptions signal_speed_2d_partial.
Print Assumptions signal_speed_refuted.
