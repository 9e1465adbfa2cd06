(** C91: what a step and a run compute. C92: which cells a new cell depends on. *)
From Coq Require Import Reals Lia Lra ZArith FunctionalExtensionality.
From Verif Require Import Base Options Sum Mat3 EqModel EqSpec FvModel FvBody FvSpec FvProof FvProps PolyModel WenoModel WenoSpec WenoProof WenoProps DgModel DgSpec DgProof2 DgProps GridModel GridSpec GridProof GridProps StepperModel AderModel AderProof3 AderProof4
  AderProps Ader2Props Ader3Props HomogModel SplitProps PhysModel UtilsModel UtilsProof UtilsProps IterModel IterSpec IterProof2 IterProps Split3Props SafeProof RunModel RunProof RunProof2 RunProps RunProof3 RunProof4 Run2Props
  MRunModel MRunProof RefSpec RefProof RefProof2 RefProof3 RefProof4 RefProof5.
From Verif Require MRunProps.
Import List ListNotations.
Open Scope nat_scope.

Section Step.
Variable o : options.
Variables NODES WGHTS : nat -> R.
Variables ENDVALS DERVALS : nat -> nat -> R.
Variables (SIG : nat -> nat -> R) (LAMS LAMC EPS : R) (inv : stencil -> (nat -> R) -> nat -> R).
Variable wallf : nat -> nat -> num -> num.
Variable ph : matpar -> phys.
Variable prim : matpar -> option ((num -> num) * (num -> num)).
Variable Phi : matpar -> R -> nat -> list num -> res (option (nat -> option nodal)).
Variable valid : matpar -> nodal -> bool.
Variable ode : matpar -> R -> num -> num.
Variables (SPLIT HALF_STEP : bool) (FLUX : nat) (nX : list nat) (bt : nat -> nat) (dX : list R).
Variable team : matpar -> grid -> list bool -> R -> nat * list nat.
Notation advance := (run_advance o NODES WGHTS ENDVALS DERVALS SIG LAMS LAMC EPS inv wallf ph prim Phi valid ode SPLIT HALF_STEP FLUX nX bt dX team).
Notation cells := (fold_right Nat.mul 1 nX).
Notation numeric m := (numeric o SIG LAMS LAMC EPS inv wallf prim Phi valid ode SPLIT HALF_STEP nX bt m).

(** the grid with every cell new, material m, time step dt, state g and mask k; cells beyond the end of a list are zero, and not masked *)
Definition stepped (m : matpar) (g : grid) (k : list bool) (dt : R) : grid :=
  let x c := nth c g (fun _ => 0%R) in
  let mk c := nth c k false in
  match nX with
  | [nx] => map (new1 o NODES WGHTS ENDVALS DERVALS SIG LAMS LAMC EPS inv wallf (ph m) (prim m) (Phi m dt) (ode m (dt / 2)%R) SPLIT HALF_STEP FLUX bt dt
                   nx (nth 0 dX 1%R) x mk) (seq 0 nx)
  | [nx; ny] => map (fun c => new2 o NODES WGHTS ENDVALS DERVALS SIG LAMS LAMC EPS inv wallf (ph m) (prim m) (Phi m dt) (ode m (dt / 2)%R) SPLIT HALF_STEP FLUX bt dt
                   nx ny (nth 0 dX 1%R) (nth 1 dX 1%R) (fun a b => x (a * ny + b)) (fun a b => mk (a * ny + b)) (c / ny) (c mod ny)) (seq 0 (nx * ny))
  | _ => []
  end.

Hypothesis HC : configured o Phi SPLIT FLUX nX bt dX team.
Lemma stepped_length m g k dt : length (stepped m g k dt) = cells.
Proof using HC.
  destruct HC as [_ HD _ _ _]. unfold stepped. destruct HD as [(nx & -> & _)|(nx & ny & -> & _)]; cbn [fold_right]; rewrite map_length, seq_length; lia.
Qed.

Hypothesis HF : finishing o NODES WGHTS ENDVALS DERVALS SIG LAMS LAMC EPS inv wallf ph prim Phi valid ode SPLIT HALF_STEP FLUX nX bt dX team.
Hypothesis HNC : length nX = 2 -> NO_CORNERS o = false.

(** the tables have the right size, the boundary conditions and the conversion for PRIM_RECONSTRUCT give numbers *)
Definition ready (m : matpar) (nodes : list R) (bs : list poly) : Prop :=
  length nodes = N o /\ weno_setup nodes bs inv SIG LAMS LAMC EPS /\ total_prim (prim m) /\ total_walls wallf bt (length nX).
(** the relaxation, the half step and the predictor give numbers on the states that the step hands to them *)
Definition met (m : matpar) (g : grid) (k : list bool) (dt : R) : Prop :=
  let x c := nth c g (fun _ => 0%R) in
  let mk c := nth c k false in
  match nX with
  | [nx] => met1 o NODES WGHTS ENDVALS DERVALS SIG LAMS LAMC EPS inv wallf (ph m) (prim m) (Phi m dt) (ode m (dt / 2)%R) SPLIT HALF_STEP FLUX bt dt (valid m) nx (nth 0 dX 1%R) x mk
  | [nx; ny] => met2 o NODES WGHTS ENDVALS DERVALS SIG LAMS LAMC EPS inv wallf (ph m) (prim m) (Phi m dt) (ode m (dt / 2)%R) SPLIT HALF_STEP FLUX bt dt (valid m)
                  nx ny (nth 0 dX 1%R) (nth 1 dX 1%R) (fun a b => x (a * ny + b)) (fun a b => mk (a * ny + b))
  | _ => True
  end.
Lemma numeric_met nodes bs m g k dt : numeric m nodes bs -> ready m nodes bs /\ met m g k dt.
Proof using HC.
  clear HNC HF. intros (Ln & HW & HP & HWa & HT). split; [exact (conj Ln (conj HW (conj HP HWa)))|]. destruct HC as [_ HD _ _ _]. unfold met.
  assert (Z : SPLIT = false -> forall d (B : nodal), d = length nX -> exists f, Phi m dt d (map (fun s => Some (B s)) (seq 0 (N o ^ d))) = Ok (Some f) /\ forall t, t < N o -> exists q, f t = Some q).
  { intros S0 d B ->. rewrite S0 in HT. apply HT; [rewrite map_length, seq_length; reflexivity|]. apply Forall_forall. intros x Hx. apply in_map_iff in Hx. destruct Hx as [s [<- _]]. eauto. }
  destruct HD as [(nx & EnX & _)|(nx & ny & EnX & _)]; rewrite EnX in *; unfold met1, met2; destruct SPLIT eqn:ES.
  - destruct HT as [HO HV]. split; [intros; apply HO|]. split; [intros; apply HO|]. split; [intros; apply HO|]. intros HH; intros; apply HV, HH.
  - intros z _ _. apply Z; reflexivity.
  - destruct HT as [HO HV]. split; [intros; apply HO|]. split; [intros; apply HO|]. split; [intros; apply HO|]. intros HH; intros; apply HV, HH.
  - intros a b _ _ _. apply Z; reflexivity.
Qed.

(** C91. However many threads there are and however they are interleaved, a step computes, in every cell, the formula of RefSpec.v. *)
Theorem step_computes_met nodes bs m g k dt : ready m nodes bs -> met m g k dt -> length g = cells -> length k = cells -> advance m g k dt = Ok (stepped m g k dt).
Proof using HC HF HNC.
  intros (Ln & HW & HP & HWa) HT Lg Lk. unfold met in HT. pose proof HC as [HR HD _ _ _].
  destruct (advance_is o NODES WGHTS ENDVALS DERVALS SIG LAMS LAMC EPS inv wallf ph prim Phi valid ode SPLIT HALF_STEP FLUX nX bt dX team HC m g k dt Lg Lk HNC
    (HF m g _ dt Lg Lk)) as (ub & mb & u1 & Eb & Em & Es & L1 & EA).
  rewrite EA. clear EA. pose proof (grid_buf_holds g (fun _ => 0%R)) as Hu. rewrite Lg in Hu.
  assert (Dk : forall i, i < length k -> bdat (mask_buf k) i = Some (nth i k false)) by (intros i Hi; cbn [mask_buf bdat]; apply nth_error_nth', Hi).
  unfold serial_step in Es. unfold stepped. pose proof HD as HD'. destruct HD' as [(nx & -> & Hn)|(nx & ny & -> & Hn & Hy)]; cbn [fold_right length] in *; rewrite Nat.mul_1_r in *.
  - destruct (boundary1 o nodes bs SIG LAMS LAMC EPS inv wallf bt Ln HW nx (grid_buf g) (balloc (extended_dimensions [nx] (N o))) _ (proj2 Hn) HWa Hu eq_refl) as (ub' & Eb' & Lub & Vub).
    rewrite Eb in Eb'. apply Ok_inj in Eb'. subst ub'.
    destruct (mask1_is nx (mask_buf k) (balloc (extended_dimensions [nx] 1)) (fun c => nth c k false)) as (mb' & Em' & Lmb & Vmb); [lia|exact Lk|intros i Hi; apply Dk; lia|cbn; lia|].
    rewrite Em in Em'. apply Ok_inj in Em'. subst mb'. destruct SPLIT.
    + destruct (split_is_1d o (ph m) NODES WGHTS ENDVALS DERVALS FLUX dt (spacing dX) nodes bs (valid m) SIG LAMS LAMC EPS inv (prim m) _ (Phi m dt) HALF_STEP wallf bt HR Ln HW HP
        nx (grid_buf g) ub mb _ _ (proj2 Hn) HT Hu Lub Vub Lmb Vmb) as (u' & Es' & H'). rewrite Es in Es'. apply Ok_inj in Es'. subst u'. exact (buf_grid_holds _ _ _ H').
    + destruct (ader_is_1d o (ph m) NODES WGHTS ENDVALS DERVALS FLUX dt (spacing dX) nodes bs (valid m) SIG LAMS LAMC EPS inv (prim m) (ode m (dt / 2)%R) (Phi m dt) HALF_STEP wallf bt HR Ln HW HP
        nx (grid_buf g) ub mb _ _ (proj2 Hn) HT Hu Lub Vub Lmb Vmb) as (u' & Es' & H'). rewrite Es in Es'. apply Ok_inj in Es'. subst u'. exact (buf_grid_holds _ _ _ H').
  - set (x := fun a b => nth (a * ny + b) g (fun _ => 0%R)).
    destruct (boundary2 o nodes bs SIG LAMS LAMC EPS inv wallf bt Ln HW nx ny (grid_buf g) (balloc (extended_dimensions [nx; ny] (N o))) x (proj2 Hn) Hy HWa (proj1 Hu)) as (ub' & Eb' & Lub & Vub).
    { intros a b Ha Hb. apply Hu, pack_bound; assumption. }
    { reflexivity. }
    rewrite Eb in Eb'. apply Ok_inj in Eb'. subst ub'.
    destruct (mask2_is nx ny (mask_buf k) (balloc (extended_dimensions [nx; ny] 1)) (fun a b => nth (a * ny + b) k false)) as (mb' & Em' & Lmb & Vmb); [lia|lia|exact Lk| |cbn; lia|].
    { intros a b Ha Hb. apply Dk. rewrite Lk. apply pack_bound; assumption. }
    rewrite Em in Em'. apply Ok_inj in Em'. subst mb'. destruct SPLIT.
    + destruct (split_is_2d o (ph m) NODES WGHTS ENDVALS DERVALS FLUX dt (spacing dX) nodes bs (valid m) SIG LAMS LAMC EPS inv (prim m) _ (Phi m dt) HALF_STEP wallf bt HR Ln HW HP
        nx ny (grid_buf g) ub mb _ _ (HNC eq_refl) (proj2 Hn) Hy Hu HT Lub Vub Lmb Vmb) as (u' & Es' & H'). rewrite Es in Es'. apply Ok_inj in Es'. subst u'. exact (buf_grid_holds _ _ _ H').
    + destruct (ader_is_2d o (ph m) NODES WGHTS ENDVALS DERVALS FLUX dt (spacing dX) nodes bs (valid m) SIG LAMS LAMC EPS inv (prim m) (ode m (dt / 2)%R) (Phi m dt) HALF_STEP wallf bt HR Ln HW HP
        nx ny (grid_buf g) ub mb _ _ (HNC eq_refl) (proj2 Hn) Hy Hu HT Lub Vub Lmb Vmb) as (u' & Es' & H'). rewrite Es in Es'. apply Ok_inj in Es'. subst u'. exact (buf_grid_holds _ _ _ H').
Qed.
(** in particular when they give numbers on all numbers *)
Theorem step_computes nodes bs m g k dt : numeric m nodes bs -> length g = cells -> length k = cells -> advance m g k dt = Ok (stepped m g k dt).
Proof using HC HF HNC. intros H. destruct (numeric_met nodes bs m g k dt H). apply (step_computes_met nodes bs); assumption. Qed.

(** C91, whole runs: the program is the loop around that formula, for one material and for several *)
Section Run.
Variable svd : mat3 -> vec3 * mat3.
Variable speed : vec -> nat -> matpar -> option R.
Variable star : vec -> vec -> matpar -> matpar -> R -> (nat -> R) -> res vec.
Variable nan : grid -> bool.
Variable ROT : bool.
Variables (CFL tf tol : R) (MPs : list matpar).
Theorem run_computes nodes bs fuel (u : grid) : (forall m, In m MPs -> numeric m nodes bs) -> length u = cells ->
  program o NODES WGHTS ENDVALS DERVALS SIG LAMS LAMC EPS inv wallf ph prim Phi valid ode SPLIT HALF_STEP FLUX nX bt dX team svd speed (run_fill o star nX dX MPs) nan ROT CFL tf tol MPs fuel u
  = iterator o svd speed (run_fill o star nX dX MPs) (fun m g k dt => Ok (stepped m g k dt)) nan ROT dX CFL tf tol MPs fuel u.
Proof using HC HF HNC.
  intros HNum Lu. unfold program. symmetry. apply iterator_same with (n := cells).
  - intros gs ms v dt u' gs' ms' SH Lv E. exact (MRunProps.fill_shape o Phi SPLIT FLUX nX bt dX team star MPs HC gs ms v dt SH Lv u' gs' ms' E).
  - intros m g k dt g' Hm Lg Lk E. rewrite (step_computes nodes bs) in E by auto. apply Ok_inj in E. subst g'. apply stepped_length.
  - intros m g k dt Hm Lg Lk. symmetry. apply (step_computes nodes bs); auto.
  - exact Lu.
Qed.
End Run.

(** C92. The new state of a cell is decided by the old states no more than N cells away along each axis (in 2-D without the four corners of that square) and by the mask no more than 2 cells away,
    cells beyond the boundary not counting. Next to a periodic boundary the cells across it count too, so there the cell is to be at a distance. The teams may differ. *)
Definition decided_by (near masked : nat -> Prop) (c : nat) (team' : matpar -> grid -> list bool -> R -> nat * list nat) : Prop :=
  forall m g g' k k' dt nodes bs, ready m nodes bs -> met m g k dt -> met m g' k' dt -> length g = cells -> length g' = cells -> length k = cells -> length k' = cells ->
    (forall i, near i -> nth i g (fun _ => 0%R) = nth i g' (fun _ => 0%R)) -> (forall i, masked i -> nth i k false = nth i k' false) ->
    exists h h', advance m g k dt = Ok h /\
      run_advance o NODES WGHTS ENDVALS DERVALS SIG LAMS LAMC EPS inv wallf ph prim Phi valid ode SPLIT HALF_STEP FLUX nX bt dX team' m g' k' dt = Ok h' /\ nth c h (fun _ => 0%R) = nth c h' (fun _ => 0%R).
End Step.

Section Step2.
Variable o : options.
Variables NODES WGHTS : nat -> R.
Variables ENDVALS DERVALS : nat -> nat -> R.
Variables (SIG : nat -> nat -> R) (LAMS LAMC EPS : R) (inv : stencil -> (nat -> R) -> nat -> R).
Variable wallf : nat -> nat -> num -> num.
Variable ph : matpar -> phys.
Variable prim : matpar -> option ((num -> num) * (num -> num)).
Variable Phi : matpar -> R -> nat -> list num -> res (option (nat -> option nodal)).
Variable valid : matpar -> nodal -> bool.
Variable ode : matpar -> R -> num -> num.
Variables (SPLIT HALF_STEP : bool) (FLUX : nat) (bt : nat -> nat) (dX : list R).
Notation team_type := (matpar -> grid -> list bool -> R -> nat * list nat).
Notation advance nX team := (run_advance o NODES WGHTS ENDVALS DERVALS SIG LAMS LAMC EPS inv wallf ph prim Phi valid ode SPLIT HALF_STEP FLUX nX bt dX team).
Notation conf nX team := (configured o Phi SPLIT FLUX nX bt dX team).
Notation fin nX team := (finishing o NODES WGHTS ENDVALS DERVALS SIG LAMS LAMC EPS inv wallf ph prim Phi valid ode SPLIT HALF_STEP FLUX nX bt dX team).
Notation numeric nX m := (numeric o SIG LAMS LAMC EPS inv wallf prim Phi valid ode SPLIT HALF_STEP nX bt m).
Notation stepped nX := (stepped o NODES WGHTS ENDVALS DERVALS SIG LAMS LAMC EPS inv wallf ph prim Phi ode SPLIT HALF_STEP FLUX nX bt dX).
Notation ready nX m := (ready o SIG LAMS LAMC EPS inv wallf prim nX bt m).
Notation met nX m := (met o NODES WGHTS ENDVALS DERVALS SIG LAMS LAMC EPS inv wallf ph prim Phi valid ode SPLIT HALF_STEP FLUX nX bt dX m).
Notation decided_by nX team := (decided_by o NODES WGHTS ENDVALS DERVALS SIG LAMS LAMC EPS inv wallf ph prim Phi valid ode SPLIT HALF_STEP FLUX nX bt dX team).

Lemma nth_map_seq (f : nat -> vec) n c d : c < n -> nth c (map f (seq 0 n)) d = f c.
Proof using. intros H. rewrite (nth_indep _ d (f 0)) by (rewrite map_length, seq_length; exact H). rewrite (map_nth f), seq_nth by exact H. reflexivity. Qed.

Theorem domain_of_dependence_1d nx (team team' : team_type) c : conf [nx] team -> fin [nx] team -> conf [nx] team' -> fin [nx] team' -> c < nx -> (bt 0 = 1 -> N o <= c) -> (bt 1 = 1 -> c + N o < nx) ->
  decided_by [nx] team (fun i => i < nx /\ c <= i + N o /\ i <= c + N o) (fun i => i < nx /\ c <= i + 2 /\ i <= c + 2) c team'.
Proof using.
  intros HC HF HC' HF' Hc B0 B1 m g g' k k' dt nodes bs HNu HMt HMt' Lg Lg' Lk Lk' HX HM.
  exists (stepped [nx] m g k dt), (stepped [nx] m g' k' dt). split; [|split].
  - apply (step_computes_met) with (nodes := nodes) (bs := bs); try assumption. discriminate.
  - apply (step_computes_met) with (nodes := nodes) (bs := bs); try assumption. discriminate.
  - unfold RefProps.stepped. rewrite !nth_map_seq by exact Hc. destruct HNu as (Ln & HW & _). destruct HC as [_ [(nx' & E & Hn)|(a & b & E & _)] _ _ _]; [|discriminate]. injection E as <-.
    apply (dependence1 o nodes bs); try assumption; [lia|intros i Hi Hd; apply HX; lia|intros i Hi Hd; apply HM; lia].
Qed.
Theorem domain_of_dependence_2d nx ny (team team' : team_type) a b : conf [nx; ny] team -> fin [nx; ny] team -> conf [nx; ny] team' -> fin [nx; ny] team' -> NO_CORNERS o = false -> a < nx -> b < ny ->
  (bt 0 = 1 -> N o <= a) -> (bt 1 = 1 -> a + N o < nx) -> (bt 2 = 1 -> N o <= b) -> (bt 3 = 1 -> b + N o < ny) ->
  let near i := exists p q, i = p * ny + q /\ p < nx /\ q < ny /\ (a <= p + N o /\ p <= a + N o) /\ (b <= q + N o /\ q <= b + N o) /\ ~ ((p + N o = a \/ p = a + N o) /\ (q + N o = b \/ q = b + N o)) in
  let masked i := exists p q, i = p * ny + q /\ p < nx /\ q < ny /\ (Z.abs (Z.of_nat p - Z.of_nat a) + Z.abs (Z.of_nat q - Z.of_nat b) <= 2)%Z in
  decided_by [nx; ny] team near masked (a * ny + b) team'.
Proof using.
  intros HC HF HC' HF' HNC Ha Hb B0 B1 B2 B3 near masked m g g' k k' dt nodes bs HNu HMt HMt' Lg Lg' Lk Lk' HX HM.
  exists (stepped [nx; ny] m g k dt), (stepped [nx; ny] m g' k' dt). split; [|split].
  - apply (step_computes_met) with (nodes := nodes) (bs := bs); try assumption. auto.
  - apply (step_computes_met) with (nodes := nodes) (bs := bs); try assumption. auto.
  - unfold RefProps.stepped. rewrite !nth_map_seq by (apply pack_bound; assumption). destruct (divmod ny a b Hb) as [-> ->]. destruct HNu as (Ln & HW & _). destruct HC as [_ [(nx' & E & _)|(x & y & E & Hn & Hy)] _ _ _]; [discriminate|]. injection E as <- <-.
    apply (dependence2 o nodes bs); try assumption; [lia| |].
    + intros i j Hi Hj d e Hd He Hde. apply HX. exists i, j. repeat split; try assumption; lia.
    + intros i j Hi Hj Hd. apply HM. exists i, j. repeat split; assumption.
Qed.

(** C93. On a periodic grid nothing singles out a cell: a step of the shifted state is the shifted step. The teams may differ. *)
Notation id := (fun q : vec => q).
Lemma image_map_seq (T : vec -> vec) s (f : nat -> vec) n : (forall c, c < n -> s c < n) -> image T s (map f (seq 0 n)) = map (fun c => T (f (s c))) (seq 0 n).
Proof using.
  intros H. unfold image. rewrite map_length, seq_length. apply map_ext_in. intros c Hc. apply in_seq in Hc. rewrite nth_map_seq by (apply H; lia). reflexivity.
Qed.
Lemma nth_true n i : nth i (repeat true n) false = Nat.ltb i n.
Proof using.
  destruct (Nat.ltb_spec i n); [|apply nth_overflow; rewrite repeat_length; assumption]. revert i H. induction n as [|n IH]; intros [|i] H; cbn [repeat nth]; try reflexivity; try (exfalso; lia). apply IH. lia.
Qed.
Definition turned2 (nx ny r s c : nat) : nat := turned nx r (c / ny) * ny + turned ny s (c mod ny).
Lemma turned_lt n r c : 0 < n -> turned n r c < n.
Proof using. intros H. apply Nat.mod_upper_bound. lia. Qed.
Lemma stepped_turned_1d nx nodes bs m g r dt : 1 <= N o <= nx -> ready [nx] m nodes bs -> bt 0 = 1 -> bt 1 = 1 -> length g = nx ->
  stepped [nx] m (image id (turned nx r) g) (repeat true nx) dt = image id (turned nx r) (stepped [nx] m g (repeat true nx) dt).
Proof using.
  intros Hn (Ln & HW & _) B0 B1 Lg. unfold RefProps.stepped. rewrite image_map_seq by (intros; apply turned_lt; lia). apply map_ext_in. intros c Hc. apply in_seq in Hc.
  rewrite <- (translation1 o nodes bs) by (try assumption; try lia; intros i Hi; rewrite nth_true; apply Nat.ltb_lt, Hi).
  apply (new1_rel o nodes bs); try assumption.
  - intros d Hd. unfold extended1. f_equal. apply extend1_val; [|lia|lia]. intros y Hy. rewrite image_nth by lia. reflexivity.
  - reflexivity.
  - rewrite image_nth by lia. reflexivity.
Qed.
Lemma stepped_turned_2d nx ny nodes bs m g r s dt : 1 <= N o <= nx -> N o <= ny -> ready [nx; ny] m nodes bs -> (r = 0 \/ bt 0 = 1 /\ bt 1 = 1) -> (s = 0 \/ bt 2 = 1 /\ bt 3 = 1) -> length g = nx * ny ->
  stepped [nx; ny] m (image id (turned2 nx ny r s) g) (repeat true (nx * ny)) dt = image id (turned2 nx ny r s) (stepped [nx; ny] m g (repeat true (nx * ny)) dt).
Proof using.
  intros Hn Hy (Ln & HW & _) B0 B2 Lg. unfold RefProps.stepped.
  assert (L : forall c, c < nx * ny -> turned2 nx ny r s c < nx * ny) by (intros c Hc; apply pack_bound; apply turned_lt; lia).
  rewrite image_map_seq by exact L. apply map_ext_in. intros c Hc. apply in_seq in Hc. assert (Y0 : ny <> 0) by lia.
  assert (Ha : c / ny < nx) by (apply Nat.div_lt_upper_bound; lia). pose proof (Nat.mod_upper_bound c ny Y0) as Hb.
  destruct (divmod ny (turned nx r (c / ny)) (turned ny s (c mod ny)) ltac:(apply turned_lt; lia)) as [D1 D2]. fold (turned2 nx ny r s c) in D1, D2. rewrite D1, D2. clear D1 D2.
  rewrite <- (translation2 o nodes bs) by (try assumption; try lia; intros i j Hi Hj; rewrite nth_true; apply Nat.ltb_lt, pack_bound; assumption).
  assert (IM : forall a b, a < nx -> b < ny -> nth (a * ny + b) (image id (turned2 nx ny r s) g) (fun _ => 0%R) = nth (turned nx r a * ny + turned ny s b) g (fun _ => 0%R)).
  { intros a b A B. rewrite image_nth by (rewrite Lg; apply pack_bound; assumption). unfold turned2. destruct (divmod ny a b B) as [-> ->]. reflexivity. }
  apply (new2_rel o nodes bs); try assumption.
  - intros d e Hd He _. unfold extended2, extend2. f_equal. apply extend1_val; [|lia|lia]. intros y Hy'. apply extend1_val; [|lia|lia]. intros x Hx'. rewrite IM by lia. reflexivity.
  - reflexivity.
  - apply IM; assumption.
Qed.
Lemma met_turned_1d nx nodes bs m g r dt : 1 <= N o <= nx -> ready [nx] m nodes bs -> bt 0 = 1 -> bt 1 = 1 -> length g = nx ->
  met [nx] m g (repeat true nx) dt -> met [nx] m (image id (turned nx r) g) (repeat true nx) dt.
Proof using.
  intros Hn (Ln & HW & _) B0 B1 Lg HM. assert (K : forall i, i < nx -> nth i (repeat true nx) false = true) by (intros i Hi; rewrite nth_true; apply Nat.ltb_lt, Hi).
  apply (met_translation1 o nodes bs) with (r := r) in HM; try assumption; [|lia]. revert HM. apply (met1_from o nodes bs); try assumption.
  - intros z Hz. exists z. split; [exact Hz|]. unfold extended1. f_equal. apply extend1_val; [|lia|lia]. intros y Hy. rewrite image_nth by lia. reflexivity.
  - intros c Hc. exists c. split; [exact Hc|]. assert (X : nth c (image id (turned nx r) g) (fun _ => 0%R) = nth (turned nx r c) g (fun _ => 0%R)) by (rewrite image_nth by lia; reflexivity). split; [exact X|].
    apply (raw1_rel o nodes bs); try assumption; [|reflexivity]. intros d Hd. unfold extended1. f_equal. apply extend1_val; [|lia|lia]. intros y Hy. rewrite image_nth by lia. reflexivity.
  - intros z Hz Hs. exists z. split; [exact Hz|]. split; [exact Hs|]. intros d Hd. unfold extended1. f_equal. apply extend1_val; [|lia|lia]. intros y Hy. rewrite image_nth by lia. reflexivity.
Qed.
Lemma met_turned_2d nx ny nodes bs m g r s dt : 1 <= N o <= nx -> N o <= ny -> ready [nx; ny] m nodes bs -> (r = 0 \/ bt 0 = 1 /\ bt 1 = 1) -> (s = 0 \/ bt 2 = 1 /\ bt 3 = 1) -> length g = nx * ny ->
  met [nx; ny] m g (repeat true (nx * ny)) dt -> met [nx; ny] m (image id (turned2 nx ny r s) g) (repeat true (nx * ny)) dt.
Proof using.
  intros Hn Hy (Ln & HW & _) B0 B2 Lg HM. assert (K : forall i j, i < nx -> j < ny -> nth (i * ny + j) (repeat true (nx * ny)) false = true) by (intros i j Hi Hj; rewrite nth_true; apply Nat.ltb_lt, pack_bound; assumption).
  assert (IM : forall a b, a < nx -> b < ny -> nth (a * ny + b) (image id (turned2 nx ny r s) g) (fun _ => 0%R) = nth (turned nx r a * ny + turned ny s b) g (fun _ => 0%R)).
  { intros a b A B. rewrite image_nth by (rewrite Lg; apply pack_bound; assumption). unfold turned2. destruct (divmod ny a b B) as [-> ->]. reflexivity. }
  assert (XE : forall a b, (- Z.of_nat (N o) <= a < Z.of_nat nx + Z.of_nat (N o))%Z -> (- Z.of_nat (N o) <= b < Z.of_nat ny + Z.of_nat (N o))%Z ->
    extended2 wallf bt nx ny (fun a b => nth (a * ny + b) (image id (turned2 nx ny r s) g) (fun _ => 0%R)) a b = extended2 wallf bt nx ny (fun a b => nth (turned nx r a * ny + turned ny s b) g (fun _ => 0%R)) a b).
  { intros a b Ha Hb. unfold extended2, extend2. f_equal. apply extend1_val; [|lia|lia]. intros y Hy'. apply extend1_val; [|lia|lia]. intros x Hx'. rewrite IM by lia. reflexivity. }
  apply (met_translation2 o nodes bs) with (r := r) (s := s) in HM; try assumption; try lia. revert HM. apply (met2_from o nodes bs); try assumption.
  - intros a b Ha Hb. exists a, b. split; [exact Ha|]. split; [exact Hb|]. apply XE; assumption.
  - intros a b Ha Hb. exists a, b. split; [exact Ha|]. split; [exact Hb|]. split; [apply IM; assumption|].
    apply (raw2_rel o nodes bs); try assumption; [| |apply IM; assumption]; [|reflexivity]. intros d e Hd He _. apply XE; lia.
  - intros a b Ha Hb Hs. exists a, b. split; [exact Ha|]. split; [exact Hb|]. split; [exact Hs|]. intros d e Hd He. apply XE; lia.
Qed.
Theorem step_translates_met_1d nx (team team' : team_type) nodes bs m g r dt : conf [nx] team -> fin [nx] team -> conf [nx] team' -> fin [nx] team' -> ready [nx] m nodes bs -> met [nx] m g (repeat true nx) dt -> bt 0 = 1 -> bt 1 = 1 -> length g = nx ->
  exists h, advance [nx] team m g (repeat true nx) dt = Ok h /\ length h = nx /\ advance [nx] team' m (image id (turned nx r) g) (repeat true nx) dt = Ok (image id (turned nx r) h).
Proof using.
  intros HC HF HC' HF' HNu HMt B0 B1 Lg. exists (stepped [nx] m g (repeat true nx) dt). split; [|split].
  - apply step_computes_met with (nodes := nodes) (bs := bs); cbn [length fold_right]; rewrite ?Nat.mul_1_r, ?repeat_length; try assumption; auto; discriminate.
  - rewrite stepped_length with (team := team) by exact HC. cbn. lia.
  - destruct HC as [_ [(nx' & E & Hn)|(x & y & E & _)] _ _ _]; [|discriminate]. injection E as <-. rewrite <- (stepped_turned_1d nx nodes bs) by assumption.
    apply step_computes_met with (nodes := nodes) (bs := bs); cbn [length fold_right]; rewrite ?Nat.mul_1_r, ?repeat_length, ?image_length; try assumption; auto; try discriminate. apply met_turned_1d with (nodes := nodes) (bs := bs); assumption.
Qed.
Theorem step_translates_met_2d nx ny (team team' : team_type) nodes bs m g r s dt : conf [nx; ny] team -> fin [nx; ny] team -> conf [nx; ny] team' -> fin [nx; ny] team' -> NO_CORNERS o = false -> ready [nx; ny] m nodes bs -> met [nx; ny] m g (repeat true (nx * ny)) dt ->
  (r = 0 \/ bt 0 = 1 /\ bt 1 = 1) -> (s = 0 \/ bt 2 = 1 /\ bt 3 = 1) -> length g = nx * ny ->
  exists h, advance [nx; ny] team m g (repeat true (nx * ny)) dt = Ok h /\ length h = nx * ny /\
    advance [nx; ny] team' m (image id (turned2 nx ny r s) g) (repeat true (nx * ny)) dt = Ok (image id (turned2 nx ny r s) h).
Proof using.
  intros HC HF HC' HF' HNC HNu HMt B0 B2 Lg. exists (stepped [nx; ny] m g (repeat true (nx * ny)) dt). split; [|split].
  - apply step_computes_met with (nodes := nodes) (bs := bs); cbn [length fold_right]; rewrite ?Nat.mul_1_r, ?repeat_length; try assumption; auto.
  - rewrite stepped_length with (team := team) by exact HC. cbn. lia.
  - destruct HC as [_ [(nx' & E & _)|(x & y & E & Hn & Hy)] _ _ _]; [discriminate|]. injection E as <- <-. rewrite <- (stepped_turned_2d nx ny nodes bs) by assumption.
    apply step_computes_met with (nodes := nodes) (bs := bs); cbn [length fold_right]; rewrite ?Nat.mul_1_r, ?repeat_length, ?image_length; try assumption; auto. apply met_turned_2d with (nodes := nodes) (bs := bs); assumption.
Qed.
(** in particular when the functions give numbers on all numbers *)
Theorem step_translates_1d nx (team team' : team_type) nodes bs m g r dt : conf [nx] team -> fin [nx] team -> conf [nx] team' -> fin [nx] team' -> numeric [nx] m nodes bs -> bt 0 = 1 -> bt 1 = 1 -> length g = nx ->
  exists h, advance [nx] team m g (repeat true nx) dt = Ok h /\ length h = nx /\ advance [nx] team' m (image id (turned nx r) g) (repeat true nx) dt = Ok (image id (turned nx r) h).
Proof using.
  intros HC HF HC' HF' HNu. destruct (numeric_met _ (fun k => NODES k) WGHTS ENDVALS DERVALS _ _ _ _ _ _ ph _ _ _ _ _ _ FLUX _ _ dX team HC nodes bs m g (repeat true nx) dt HNu). intros. apply (step_translates_met_1d nx team team' nodes bs); assumption.
Qed.
Theorem step_translates_2d nx ny (team team' : team_type) nodes bs m g r s dt : conf [nx; ny] team -> fin [nx; ny] team -> conf [nx; ny] team' -> fin [nx; ny] team' -> NO_CORNERS o = false -> numeric [nx; ny] m nodes bs ->
  (r = 0 \/ bt 0 = 1 /\ bt 1 = 1) -> (s = 0 \/ bt 2 = 1 /\ bt 3 = 1) -> length g = nx * ny ->
  exists h, advance [nx; ny] team m g (repeat true (nx * ny)) dt = Ok h /\ length h = nx * ny /\
    advance [nx; ny] team' m (image id (turned2 nx ny r s) g) (repeat true (nx * ny)) dt = Ok (image id (turned2 nx ny r s) h).
Proof using.
  intros HC HF HC' HF' HNC HNu. destruct (numeric_met _ (fun k => NODES k) WGHTS ENDVALS DERVALS _ _ _ _ _ _ ph _ _ _ _ _ _ FLUX _ _ dX team HC nodes bs m g (repeat true (nx * ny)) dt HNu). intros. apply (step_translates_met_2d nx ny team team' nodes bs); assumption.
Qed.

(** ... and so is a whole run: the times, the number of turns, and every snapshot shifted *)
Section Run2.
Variable svd : mat3 -> vec3 * mat3.
Variable speed : vec -> nat -> matpar -> option R.
Variables fill fill' : list grid -> list (list bool) -> grid -> R -> res (grid * list grid * list (list bool)).
Variable nan : grid -> bool.
Variable ROT : bool.
Variables (CFL tf tol : R) (m : matpar).
(** a state that the run from u hands to a step of the solver, with the length of the step *)
Notation handed nX team u := (handed o svd speed fill (advance nX team) nan ROT dX CFL tf tol m (init [m] u)).
Notation prog nX team fill := (program o NODES WGHTS ENDVALS DERVALS SIG LAMS LAMC EPS inv wallf ph prim Phi valid ode SPLIT HALF_STEP FLUX nX bt dX team svd speed fill nan ROT CFL tf tol [m]).
Hypothesis HL : LSET o = 0.
Hypothesis HM : mp_void m = false.
Lemma cell_commutes f : (forall i j q, f i q = f j q) -> (forall q, exists q', f 0 q = Ok q') -> commutes id f.
Proof using.
  intros HI HT. exists (fun q => match f 0 q with Ok q' => q' | _ => q end). split; [|reflexivity]. intros i q. rewrite (HI i 0). destruct (HT q) as [q' E]. rewrite E. reflexivity.
Qed.
Lemma one_cell : VISCOUS o = true -> (MULTI o = true -> commutes id (fun _ q => match limit_concentration o [q] with [q] => Ok q | _ => UB "" end)) /\ commutes id (renorm_cell o [m]) /\ commutes id (rotate_cell o svd [m]) /\ commutes id (reset_cell o [m]).
Proof using HL HM.
  intros HV. pose proof (V14 o HV) as V. assert (G : forall q, UtilsModel.get [m] (get_material_index o q) = Ok m).
  { intros q. pose proof (material_bound o q) as X. rewrite HL in X. replace (get_material_index o q) with 0 by lia. reflexivity. }
  assert (A : forall q, has_A o q = q) by (intros q; unfold has_A; destruct (Nat.ltb_spec (Options.V o) 14); [lia|reflexivity]).
  repeat split.
  - intros E. apply cell_commutes; [reflexivity|]. intros q. unfold limit_concentration. rewrite E. cbn [map]. eauto.
  - apply cell_commutes; [reflexivity|]. intros q. unfold renorm_cell. rewrite G. cbn [bind]. rewrite HM. destruct (Rlt_dec _ _); [|eauto]. rewrite A. eauto.
  - apply cell_commutes; [reflexivity|]. intros q. unfold rotate_cell. rewrite G. cbn [bind]. rewrite HM, A. destruct (svd (get_A q)) as [w Vm]. eauto.
  - apply cell_commutes; [reflexivity|]. intros q. unfold reset_cell. rewrite G. cbn [bind]. rewrite HM, A. eauto.
Qed.
Lemma turned_permutes n r : 0 < n -> permutes n (turned n r).
Proof using.
  clear HL. intros Hn. split; [intros; apply turned_lt, Hn|]. intros c Hc. exists ((c + (n - r mod n)) mod n). pose proof (Nat.mod_upper_bound r n ltac:(lia)) as R0. split; [apply Nat.mod_upper_bound; lia|].
  unfold turned. rewrite Nat.add_mod_idemp_l by lia. rewrite (Nat.div_mod_eq r n) at 2. replace (c + (n - r mod n) + (n * (r / n) + r mod n)) with (c + (1 + r / n) * n) by lia. rewrite Nat.mod_add by lia. apply Nat.mod_small, Hc.
Qed.
Lemma turned2_permutes nx ny r s : 0 < nx -> 0 < ny -> permutes (nx * ny) (turned2 nx ny r s).
Proof using.
  clear HL. intros Hx Hy. split.
  - intros c Hc. apply pack_bound; apply turned_lt; assumption.
  - intros c Hc. assert (Ha : c / ny < nx) by (apply Nat.div_lt_upper_bound; lia). pose proof (Nat.mod_upper_bound c ny ltac:(lia)) as Hb.
    destruct (turned_permutes nx r Hx) as [_ P]. destruct (P _ Ha) as (a & A & Ea). destruct (turned_permutes ny s Hy) as [_ Q]. destruct (Q _ Hb) as (b & B & Eb).
    exists (a * ny + b). split; [apply pack_bound; assumption|]. unfold turned2. destruct (divmod ny a b B) as [-> ->]. rewrite Ea, Eb. rewrite (Nat.div_mod_eq c ny) at 3. lia.
Qed.
Theorem run_translates_met_1d nx (team team' : team_type) nodes bs r fuel (u : grid) : conf [nx] team -> fin [nx] team -> conf [nx] team' -> fin [nx] team' -> ready [nx] m nodes bs ->
  (forall g dt, handed [nx] team u g dt -> met [nx] m g (repeat true nx) dt) -> bt 0 = 1 -> bt 1 = 1 ->
  (forall g, nan (image id (turned nx r) g) = nan g) -> length u = nx ->
  prog [nx] team' fill' fuel (image id (turned nx r) u) = image_run id (turned nx r) (prog [nx] team fill fuel u).
Proof using HL HM.
  intros HC HF HC' HF' HNu HMt B0 B1 Hnan Lu. pose proof HC as [[HV _] HD _ _ _]. destruct HD as [(nx' & E & Hn)|(x & y & E & _)]; [|discriminate]. injection E as <-.
  destruct (one_cell HV) as (C1 & C2 & C3 & C4). unfold program. apply iterator_image with (n := nx) (Good := fun g dt => met [nx] m g (repeat true nx) dt); try assumption; try reflexivity; auto.
  - apply turned_permutes. lia.
  - intros g dt Lg Gg. apply (step_translates_met_1d nx team team' nodes bs); assumption.
Qed.
Theorem run_translates_met_2d nx ny (team team' : team_type) nodes bs r s fuel (u : grid) : conf [nx; ny] team -> fin [nx; ny] team -> conf [nx; ny] team' -> fin [nx; ny] team' -> NO_CORNERS o = false -> ready [nx; ny] m nodes bs ->
  (forall g dt, handed [nx; ny] team u g dt -> met [nx; ny] m g (repeat true (nx * ny)) dt) ->
  (r = 0 \/ bt 0 = 1 /\ bt 1 = 1) -> (s = 0 \/ bt 2 = 1 /\ bt 3 = 1) -> (forall g, nan (image id (turned2 nx ny r s) g) = nan g) -> length u = nx * ny ->
  prog [nx; ny] team' fill' fuel (image id (turned2 nx ny r s) u) = image_run id (turned2 nx ny r s) (prog [nx; ny] team fill fuel u).
Proof using HL HM.
  intros HC HF HC' HF' HNC HNu HMt B0 B2 Hnan Lu. pose proof HC as [[HV _] HD _ _ _]. destruct HD as [(nx' & E & _)|(x & y & E & Hn & Hy)]; [discriminate|]. injection E as <- <-.
  destruct (one_cell HV) as (C1 & C2 & C3 & C4). unfold program. apply iterator_image with (n := nx * ny) (Good := fun g dt => met [nx; ny] m g (repeat true (nx * ny)) dt); try assumption; try reflexivity; auto.
  - apply turned2_permutes; lia.
  - intros g dt Lg Gg. apply (step_translates_met_2d nx ny team team' nodes bs); assumption.
Qed.
(** in particular when the functions give numbers on all numbers *)
Theorem run_translates_1d nx (team team' : team_type) nodes bs r fuel (u : grid) : conf [nx] team -> fin [nx] team -> conf [nx] team' -> fin [nx] team' -> numeric [nx] m nodes bs -> bt 0 = 1 -> bt 1 = 1 ->
  (forall g, nan (image id (turned nx r) g) = nan g) -> length u = nx ->
  prog [nx] team' fill' fuel (image id (turned nx r) u) = image_run id (turned nx r) (prog [nx] team fill fuel u).
Proof using HL HM.
  intros HC HF HC' HF' HNu. pose proof (fun g dt => numeric_met _ (fun k => NODES k) WGHTS ENDVALS DERVALS _ _ _ _ _ _ ph _ _ _ _ _ _ FLUX _ _ dX team HC nodes bs m g (repeat true nx) dt HNu) as X. intros.
  apply (run_translates_met_1d nx team team' nodes bs); try assumption; [apply (X [] 0%R)|intros g dt _; apply X].
Qed.
Theorem run_translates_2d nx ny (team team' : team_type) nodes bs r s fuel (u : grid) : conf [nx; ny] team -> fin [nx; ny] team -> conf [nx; ny] team' -> fin [nx; ny] team' -> NO_CORNERS o = false -> numeric [nx; ny] m nodes bs ->
  (r = 0 \/ bt 0 = 1 /\ bt 1 = 1) -> (s = 0 \/ bt 2 = 1 /\ bt 3 = 1) -> (forall g, nan (image id (turned2 nx ny r s) g) = nan g) -> length u = nx * ny ->
  prog [nx; ny] team' fill' fuel (image id (turned2 nx ny r s) u) = image_run id (turned2 nx ny r s) (prog [nx; ny] team fill fuel u).
Proof using HL HM.
  intros HC HF HC' HF' HNC HNu. pose proof (fun g dt => numeric_met _ (fun k => NODES k) WGHTS ENDVALS DERVALS _ _ _ _ _ _ ph _ _ _ _ _ _ FLUX _ _ dX team HC nodes bs m g (repeat true (nx * ny)) dt HNu) as X. intros.
  apply (run_translates_met_2d nx ny team team' nodes bs); try assumption; [apply (X [] 0%R)|intros g dt _; apply X].
Qed.
End Run2.
End Step2.

(** ** Cases that meet the hypotheses: n cells, the split solver with its half step, a relaxation that adds to the momentum, one and three threads *)
Lemma ex_setup n ph Phi m b : 2 <= n -> b <= 1 ->
  exists nodes bs w inv SIG (team team' : matpar -> grid -> list bool -> R -> nat * list nat), (forall m g k dt, fst (team m g k dt) = 3) /\ (forall m g k dt, fst (team' m g k dt) = 1) /\
    (forall t, t = team \/ t = team' -> configured ex_opt Phi true 0 [n] (fun _ => b) [1%R] t /\
      finishing ex_opt (fun k => nth k nodes 0%R) w (end_values bs) (Dv bs nodes) SIG 1 100000 (1 / 100) inv (fun _ _ x => x) ph (fun _ => None) Phi (fun _ _ => true) ex_ode true true 0 [n] (fun _ => b) [1%R] t) /\
    numeric ex_opt SIG 1 100000 (1 / 100) inv (fun _ _ x => x) (fun _ => None) Phi (fun _ _ => true) ex_ode true true [n] (fun _ => b) m nodes bs.
Proof.
  intros Hn Hb. destruct dg_basis_hyps as [nodes [bs [w [G L]]]]. pose proof G as [Dn [Bn _]]. destruct (weno_hyps nodes Dn ltac:(lia)) as [bs' [inv [SIG HW]]].
  pose proof HW as [_ [Bn' _]]. rewrite Bn in Bn'. injection Bn' as <-.
  assert (C : forall team : matpar -> grid -> list bool -> R -> nat * list nat, (forall m g k dt, 0 < fst (team m g k dt)) -> configured ex_opt Phi true 0 [n] (fun _ => b) [1%R] team).
  { intros team T. split.
    - split; [reflexivity|]. split; [lia|]. split; cbn; lra.
    - left. exists n. split; [reflexivity|]. cbn. lia.
    - intros k Hk. lia.
    - intros. apply T.
    - discriminate. }
  assert (F : forall p, 0 < p -> exists team, (forall m g k dt, fst (team m g k dt) = p) /\
     finishing ex_opt (fun k => nth k nodes 0%R) w (end_values bs) (Dv bs nodes) SIG 1 100000 (1 / 100) inv (fun _ _ x => x) ph (fun _ => None) Phi (fun _ _ => true) ex_ode true true 0 [n] (fun _ => b) [1%R] team).
  { intros p Hp. apply (finishing_exists ex_opt (fun k => nth k nodes 0%R) w (end_values bs) (Dv bs nodes) SIG 1 100000 (1 / 100) inv (fun _ _ x => x) ph (fun _ => None) Phi (fun _ _ => true) ex_ode true true 0 [n] (fun _ => b) [1%R] (fun _ _ _ _ => p)); [auto|]. apply C. intros. exact Hp. }
  destruct (F 3 ltac:(lia)) as (team & T & Fi). destruct (F 1 ltac:(lia)) as (team' & T' & Fi'). exists nodes, bs, w, inv, SIG, team, team'. split; [exact T|]. split; [exact T'|]. split.
  - intros t [-> | ->]; (split; [apply C; intros; rewrite ?T, ?T'; lia|assumption]).
  - split; [exact L|]. split; [exact HW|]. split; [exact I|]. split; [intros k Hk; split; [lia|intros X; lia]|]. split; [|reflexivity]. intros h v. eexists. reflexivity.
Qed.
(** C91: four periodic cells, the second one masked out; one thread *)
Example step_computes_case ph Phi m dt : exists nodes bs w inv SIG team, (forall m g k dt, fst (team m g k dt) = 1) /\
  run_advance ex_opt (fun k => nth k nodes 0%R) w (end_values bs) (Dv bs nodes) SIG 1 100000 (1 / 100) inv (fun _ _ x => x) ph (fun _ => None) Phi (fun _ _ => true) ex_ode true true 0 [4] (fun _ => 1) [1%R] team m ex_field [true; false; true; true] dt
  = Ok (stepped ex_opt (fun k => nth k nodes 0%R) w (end_values bs) (Dv bs nodes) SIG 1 100000 (1 / 100) inv (fun _ _ x => x) ph (fun _ => None) Phi ex_ode true true 0 [4] (fun _ => 1) [1%R] m ex_field [true; false; true; true] dt).
Proof.
  destruct (ex_setup 4 ph Phi m 1 ltac:(lia) ltac:(lia)) as (nodes & bs & w & inv & SIG & team & team' & _ & T' & CF & NU). destruct (CF team' (or_intror eq_refl)) as [C F]. exists nodes, bs, w, inv, SIG, team'. split; [exact T'|].
  apply (step_computes _ _ _ _ _ _ _ _ _ _ _ _ _ _ _ _ _ _ _ _ _ _ _ C F) with (nodes := nodes) (bs := bs); [discriminate|exact NU|reflexivity|reflexivity].
Qed.
(** C92: eight cells with open ends; the last cells of the two fields differ, and so do the numbers of threads, yet the new states of the first five cells are the same *)
Example domain_case ph Phi m dt c : c < 5 -> let g (last : vec) : grid := map (fun a _ => INR a) (seq 0 7) ++ [last] in forall p q : vec,
  exists nodes bs w inv SIG team team' h h', (forall m g k dt, fst (team m g k dt) = 3) /\ (forall m g k dt, fst (team' m g k dt) = 1) /\
  let step team g := run_advance ex_opt (fun k => nth k nodes 0%R) w (end_values bs) (Dv bs nodes) SIG 1 100000 (1 / 100) inv (fun _ _ x => x) ph (fun _ => None) Phi (fun _ _ => true) ex_ode true true 0 [8] (fun _ => 0) [1%R] team m g (repeat true 8) dt in
  step team (g p) = Ok h /\ step team' (g q) = Ok h' /\ nth c h (fun _ => 0%R) = nth c h' (fun _ => 0%R).
Proof.
  intros Hc g p q. destruct (ex_setup 8 ph Phi m 0 ltac:(lia) ltac:(lia)) as (nodes & bs & w & inv & SIG & team & team' & T & T' & CF & NU).
  destruct (CF team (or_introl eq_refl)) as [C F]. destruct (CF team' (or_intror eq_refl)) as [C' F'].
  pose proof (fun g => numeric_met ex_opt (fun k => nth k nodes 0%R) w (end_values bs) (Dv bs nodes) SIG 1 100000 (1 / 100) inv (fun _ _ x => x) ph (fun _ => None) Phi (fun _ _ => true) ex_ode true true 0 [8] (fun _ => 0) [1%R] team C nodes bs m g (repeat true 8) dt NU) as NM.
  destruct (domain_of_dependence_1d ex_opt (fun k => nth k nodes 0%R) w (end_values bs) (Dv bs nodes) SIG 1 100000 (1 / 100) inv (fun _ _ x => x) ph (fun _ => None) Phi (fun _ _ => true) ex_ode true true 0 (fun _ => 0) [1%R] 8 team team' c C F C' F' ltac:(lia) ltac:(discriminate) ltac:(discriminate)
    m (g p) (g q) (repeat true 8) (repeat true 8) dt nodes bs (proj1 (NM (g p))) (proj2 (NM (g p))) (proj2 (NM (g q)))) as (h & h' & E & E' & X); try reflexivity.
  { unfold g. change (N ex_opt) with 2. intros i (I1 & I2 & I3). rewrite !app_nth1 by (cbn; lia). reflexivity. }
  exists nodes, bs, w, inv, SIG, team, team', h, h'. repeat split; assumption.
Qed.
(** C93: the run of C84's case, and the run of its field 1 2 3 4 shifted to 2 3 4 1, by one thread *)
Example translation_case ph Phi svd fill tol par5 : let m := mkmatpar par5 false in
  exists nodes bs w inv SIG team team', (forall m g k dt, fst (team m g k dt) = 3) /\ (forall m g k dt, fst (team' m g k dt) = 1) /\
  let prog team := program ex_opt (fun k => nth k nodes 0%R) w (end_values bs) (Dv bs nodes) SIG 1 100000 (1 / 100) inv (fun _ _ x => x) ph (fun _ => None) Phi (fun _ _ => true) ex_ode true true 0 [4] (fun _ => 1) [1%R] team
      svd (fun _ _ _ => Some 1%R) fill (fun _ => false) false (1 / 2) 1 tol [m] 11 in
  exists s s', prog team (map (fun x _ => INR x) [1; 2; 3; 4]) = Ok (s, false) /\ prog team' (map (fun x _ => INR x) [2; 3; 4; 1]) = Ok (s', false) /\ s_t s = 1%R /\ s_t s' = 1%R /\
    s_u s' = map (fun c => nth ((c + 1) mod 4) (s_u s) (fun _ => 0%R)) (seq 0 (length (s_u s))).
Proof.
  intros m. destruct (ex_setup 4 ph Phi m 1 ltac:(lia) ltac:(lia)) as (nodes & bs & w & inv & SIG & team & team' & T & T' & CF & NU).
  destruct (CF team (or_introl eq_refl)) as [C F]. destruct (CF team' (or_intror eq_refl)) as [C' F']. exists nodes, bs, w, inv, SIG, team, team'. split; [exact T|]. split; [exact T'|]. intros prog.
  set (u := map (fun x _ => INR x) [1; 2; 3; 4] : grid).
  assert (SL : slow [1%R] (fun _ _ _ => Some 1%R) 1).
  { split; [lra|]. intros q m' c H. cbn [speed_sum]. specialize (H 0 ltac:(cbn; lia)). injection H as H. rewrite <- H. lra. }
  destruct (run_completes ex_opt (fun k => nth k nodes 0%R) w (end_values bs) (Dv bs nodes) SIG 1 100000 (1 / 100) inv (fun _ _ x => x) ph (fun _ => None) Phi (fun _ _ => true) ex_ode true true 0 [4] (fun _ => 1) [1%R] team
    svd (fun _ _ _ => Some 1%R) fill (fun _ => false) false (1 / 2) 1 tol m C F eq_refl eq_refl ltac:(lra) ltac:(lra) ltac:(reflexivity) ltac:(discriminate) nodes bs 1 u 11 NU SL ltac:(cbn [INR]; lra) eq_refl) as (s & E & Et & _).
  pose proof (run_translates_1d ex_opt (fun k => nth k nodes 0%R) w (end_values bs) (Dv bs nodes) SIG 1 100000 (1 / 100) inv (fun _ _ x => x) ph (fun _ => None) Phi (fun _ _ => true) ex_ode true true 0 (fun _ => 1) [1%R]
    svd (fun _ _ _ => Some 1%R) fill fill (fun _ => false) false (1 / 2) 1 tol m eq_refl eq_refl 4 team team' nodes bs 1 11 u C F C' F' NU eq_refl eq_refl ltac:(reflexivity) eq_refl) as X.
  rewrite E in X. cbn [image_run] in X. exists s, (image_state (fun q => q) (turned 4 1) s). split; [exact E|]. split; [exact X|]. split; [exact Et|]. split; [exact Et|]. reflexivity.
Qed.

Print Assumptions step_computes.
Print Assumptions step_computes_met.
Print Assumptions run_computes.
Print Assumptions domain_of_dependence_1d.
Print Assumptions domain_of_dependence_2d.
Print Assumptions step_translates_1d.
Print Assumptions step_translates_2d.
Print Assumptions step_translates_met_1d.
Print Assumptions step_translates_met_2d.
Print Assumptions run_translates_met_1d.
Print Assumptions run_translates_met_2d.
Print Assumptions run_translates_1d.
Print Assumptions run_translates_2d.
