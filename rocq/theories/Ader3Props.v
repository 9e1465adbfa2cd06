(** C74: a whole ADER step on finite data touches no memory out of range, reads nothing unwritten, and gives numbers.
    With it: cases for C18 and C20, and their versions for several steps. *)
From Coq Require Import Reals Lia Lra ZArith FunctionalExtensionality.
From Verif Require Import Base Options Sum EqModel EqSpec FvModel FvBody FvSpec FvProof FvProps PolyModel WenoModel WenoSpec WenoProof3 WenoProps
  DgModel DgSpec DgProof2 DgProof3 DgProps StepperModel StepperProof GridModel GridSpec GridProps AderModel AderProof AderProof2 AderProof3 AderProps AderProof4 Ader2Props.
From Verif Require StepperProps.
Import List ListNotations.
Open Scope nat_scope.

Section C74.
Variable o : options.
Variable ph : phys.
Variables NODES WGHTS : nat -> R.
Variables ENDVALS DERVALS : nat -> nat -> R.
Variables (FLUX : nat) (dt : R) (dX : nat -> R).
Variables (nodes : list R) (bs : list poly).
Variables (SIG : nat -> nat -> R) (LAMS LAMC EPS : R) (inv : stencil -> (nat -> R) -> nat -> R).
Variable prim : option ((num -> num) * (num -> num)).
Variable Phi : nat -> list num -> res (option (nat -> option nodal)).
Variable wallf : nat -> nat -> num -> num.
Notation ader := (ader_with o ph NODES WGHTS ENDVALS DERVALS FLUX dt dX SIG LAMS LAMC EPS inv prim Phi).

(** functions that give numbers on numbers *)
Definition total_cell (f : num -> num) : Prop := forall v, exists v', f (Some v) = Some v'.
Definition total_prim : Prop := match prim with None => True | Some (p, c) => total_cell p /\ total_cell c end.
(** the predictor of a cell with finite coefficients gives the N finite time blocks *)
Definition total_predictor (ndim : nat) : Prop :=
  forall l, length l = N o ^ ndim -> Forall (fun x => exists v, x = Some v) l ->
    exists f, Phi ndim l = Ok (Some f) /\ forall t, t < N o -> exists q, f t = Some q.

Hypothesis HR : runs o FLUX dX.
Hypothesis HN : length nodes = N o.
Hypothesis HW : weno_setup nodes bs inv SIG LAMS LAMC EPS.
Hypothesis HP : total_prim.

Definition finite_reads (m : nat) (b : buf num) : Prop := forall a, a < m -> exists v, rd b a = Ok (Some v).
Definition finite_full (m : nat) (b : buf num) : Prop := blen b = m /\ forall a, a < m -> exists v, bdat b a = Some (Some v).
Lemma finite_choice m b : finite_full m b -> exists f : nat -> vec, forall a, a < m -> bdat b a = Some (Some (f a)).
Proof using.
  intros [_ H]. exists (fun a => match bdat b a with Some (Some v) => v | _ => fun _ => 0%R end). intros a Ha. destruct (H a Ha) as [v ->]. reflexivity.
Qed.
Lemma finite_bmap m b f : finite_full m b -> total_cell f -> finite_full m (bmap f b).
Proof using. intros [L H] T. split; [exact L|]. intros a Ha. cbn [bmap bdat]. destruct (H a Ha) as [v ->]. destruct (T v) as [v' ->]. eauto. Qed.
Lemma finite_reads_bmap m b f : finite_reads m b -> total_cell f -> finite_reads m (bmap f b).
Proof using.
  intros H T a Ha. destruct (H a Ha) as [v E]. unfold rd in *. cbn [bmap blen bdat]. destruct (a <? blen b); [|discriminate].
  destruct (bdat b a); [|discriminate]. injection E as ->. destruct (T v) as [v' ->]. eauto.
Qed.
Lemma weno_finite nX m wh ub : length nX = 1 \/ length nX = 2 ->
  (forall b, finite_full m b -> exists wh', weno_launcher (N o) SIG LAMS LAMC EPS inv None (NO_CORNERS o) wh b nX = Ok wh' /\ finite_reads (extended_dimensions nX 1 * N o ^ length nX) wh') ->
  finite_full m ub ->
  exists wh', weno_launcher (N o) SIG LAMS LAMC EPS inv prim (NO_CORNERS o) wh ub nX = Ok wh' /\ finite_reads (extended_dimensions nX 1 * N o ^ length nX) wh'.
Proof using HP.
  intros _ H Hu. unfold total_prim in HP. destruct prim as [[p c]|]; [|exact (H ub Hu)]. destruct HP as [Tp Tc].
  destruct (H (bmap p ub) (finite_bmap _ _ _ Hu Tp)) as [wh' [E F]]. unfold weno_launcher in E |- *. apply bind_ok in E. destruct E as [w2 [E Eq]]. injection Eq as <-.
  rewrite E. cbn [bind]. eexists. split; [reflexivity|]. apply finite_reads_bmap; assumption.
Qed.
Lemma weno_finite_1d nx ub : finite_full (nx + 2 * N o) ub ->
  exists wh', weno_launcher (N o) SIG LAMS LAMC EPS inv prim (NO_CORNERS o) (balloc ((nx + 2) * N o)) ub [nx] = Ok wh' /\ finite_reads ((nx + 2) * N o) wh'.
Proof using HP HN HW.
  intros Hu. pose proof HW as [_ [_ [N1 _]]]. assert (DX : extended_dimensions [nx] 1 * N o ^ length [nx] = (nx + 2) * N o) by (cbn; lia).
  rewrite <- DX. apply (weno_finite [nx] (nx + 2 * N o)); [left; reflexivity| |exact Hu]. rewrite DX.
  intros b Hb. pose proof (proj1 Hb) as Lb. destruct (finite_choice _ _ Hb) as [f Hf]. rewrite <- HN in *.
  destruct (weno_average_1d nodes bs inv SIG LAMS LAMC EPS HW (NO_CORNERS o) nx f (balloc ((nx + 2) * length nodes)) b eq_refl Lb Hf) as [wh' [E H]].
  exists wh'. split; [exact E|]. intros a Ha. destruct (H (a / length nodes)) as [c [Hc _]]; [apply Nat.div_lt_upper_bound; lia|].
  exists (c (a mod length nodes)). rewrite <- Hc by (apply Nat.mod_upper_bound; lia). f_equal. rewrite (Nat.div_mod_eq a (length nodes)) at 1. lia.
Qed.
Lemma weno_finite_2d nx ny ub : (NO_CORNERS o = true -> enough (N o) (nx + 2) (N o)) -> finite_full ((nx + 2 * N o) * (ny + 2 * N o)) ub ->
  exists wh', weno_launcher (N o) SIG LAMS LAMC EPS inv prim (NO_CORNERS o) (balloc ((nx + 2) * (ny + 2) * N o ^ 2)) ub [nx; ny] = Ok wh' /\ finite_reads ((nx + 2) * (ny + 2) * N o ^ 2) wh'.
Proof using HP HN HW.
  intros HE Hu. pose proof HW as [_ [_ [N1 _]]]. assert (DX : extended_dimensions [nx; ny] 1 * N o ^ length [nx; ny] = (nx + 2) * (ny + 2) * N o ^ 2) by (unfold extended_dimensions; cbn; lia).
  rewrite <- DX. apply (weno_finite [nx; ny] ((nx + 2 * N o) * (ny + 2 * N o))); [right; reflexivity| |exact Hu]. rewrite DX.
  intros b Hb. pose proof (proj1 Hb) as Lb. destruct (finite_choice _ _ Hb) as [f Hf]. rewrite <- HN in *.
  replace ((nx + 2) * (ny + 2) * length nodes ^ 2) with ((nx + 2) * (ny + 2) * length nodes * length nodes) by (cbn; lia). set (n := length nodes) in *.
  destruct (weno_average_2d nodes bs inv SIG LAMS LAMC EPS HW (NO_CORNERS o) nx ny f (balloc ((nx + 2) * (ny + 2) * n * n)) b HE eq_refl Lb Hf) as [wh' [E H]].
  exists wh'. split; [exact E|]. intros a Ha. assert (N0 : n <> 0) by lia. assert (M0 : ny + 2 <> 0) by lia.
  pose proof (Nat.mod_upper_bound a n N0) as H1. pose proof (Nat.mod_upper_bound (a / n) n N0) as H2. pose proof (Nat.mod_upper_bound (a / n / n) (ny + 2) M0) as H3.
  destruct (H (a / n / n / (ny + 2)) (a / n / n mod (ny + 2))) as [c [Hc _]]; [|exact H3|].
  - apply Nat.div_lt_upper_bound; [lia|]. apply Nat.div_lt_upper_bound; [lia|]. apply Nat.div_lt_upper_bound; [lia|]. nia.
  - exists (c (a / n mod n) (a mod n)). rewrite <- (Hc _ _ H2 H1). f_equal. fold n.
    rewrite (Nat.div_mod_eq a n) at 1. rewrite (Nat.div_mod_eq (a / n) n) at 1. rewrite (Nat.div_mod_eq (a / n / n) (ny + 2)) at 1. ring.
Qed.

Lemma gather_finite wh m : forall n i, finite_reads m wh -> i + n <= m ->
  exists l, gather (rd wh) n i = Ok l /\ length l = n /\ Forall (fun x => exists v, x = Some v) l.
Proof using HN.
  induction n as [|n IH]; intros i H L; cbn [gather].
  - exists []. split; [reflexivity|]. split; [reflexivity|constructor].
  - destruct (H i ltac:(lia)) as [v E]. rewrite E. cbn [bind]. destruct (IH (S i) H ltac:(lia)) as [l [El [Ll Fl]]]. rewrite El. cbn [bind].
    eexists. split; [reflexivity|]. cbn [length]. split; [now rewrite Ll|]. constructor; [eauto|exact Fl].
Qed.
Lemma predictor_finite ndim n wh mask : 1 <= N o -> total_predictor ndim -> finite_reads (n * N o ^ ndim) wh -> blen mask = n -> (forall i, i < n -> exists b, rd mask i = Ok b) ->
  exists qh q, predictor (N o) (option nodal) Phi ndim (N o ^ ndim) (balloc (n * N o)) wh mask = Ok qh /\ blen qh = n * N o /\
    (forall a, match bdat qh a with Some b => unwrap b | None => zblk end = q a) /\
    forall i t, t < N o -> i * N o + t < blen qh -> rd mask i = Ok true -> bdat qh (i * N o + t) = Some (Some (q (i * N o + t))).
Proof using HN.
  intros N1 HT Hr Lm Hm.
  assert (G : forall i, i < n -> exists r, pcell (option nodal) Phi ndim (N o ^ ndim) wh mask i = Ok r /\ (rd mask i = Ok true -> exists f, r = Some f /\ forall t, t < N o -> exists q, f t = Some q)).
  { intros i Hi. unfold pcell. destruct (Hm i Hi) as [m Em]. rewrite Em. cbn [bind]. destruct m; [|exists None; split; [reflexivity|discriminate]].
    destruct (gather_finite wh (n * N o ^ ndim) (N o ^ ndim) (i * N o ^ ndim) Hr ltac:(nia)) as [l [-> [Ll Fl]]]. cbn [bind]. destruct (HT l Ll Fl) as [f [Ef Hf]].
    exists (Some f). split; [exact Ef|]. intros _. exists f. split; [reflexivity|exact Hf]. }
  destruct (predictor_ok (N o) N1 (option nodal) Phi ndim (N o ^ ndim) (balloc (n * N o)) wh mask
     (fun i => match pcell (option nodal) Phi ndim (N o ^ ndim) wh mask i with Ok r => r | _ => None end)) as [qh [Eq [Lq Vq]]].
  - cbn [balloc blen]. lia.
  - intros i Hi. destruct (G i ltac:(lia)) as [f [-> _]]. reflexivity.
  - exists qh, (fun a => match bdat qh a with Some b => unwrap b | None => zblk end). split; [exact Eq|]. split; [exact Lq|]. split; [reflexivity|].
    intros i t Ht Hi Mi. assert (Ii : i < n) by (cbn [balloc blen] in Lq; rewrite Lq in Hi; nia).
    destruct (G i Ii) as [r [Er Hr']]. destruct (Hr' Mi) as [f [-> Hf]]. destruct (Hf t Ht) as [q Hq]. specialize (Vq i t ltac:(lia) Ht). rewrite Er, Hq in Vq. rewrite Vq. reflexivity.
Qed.

(** walls that turn numbers into numbers *)
Definition total_walls (bt : nat -> nat) (ndim : nat) : Prop := forall k, k < 2 * ndim -> bt k <= 5 /\ (1 < bt k -> total_cell (wallf (bt k) (k / 2))).
Lemma extend1_finite t0 t1 d n x f : (forall y, exists v : vec, f y = Some v) -> (1 < t0 -> total_cell (wallf t0 d)) -> (1 < t1 -> total_cell (wallf t1 d)) ->
  exists v, extend1 num wallf t0 t1 d n f x = Some v.
Proof using HN.
  intros F H0 H1.
  assert (G : forall ty x y z, (1 < ty -> total_cell (wallf ty d)) -> exists v, ghost num wallf ty d n f x y z = Some v).
  { intros ty x' y z H. destruct ty as [|[|ty]]; cbn [ghost]; [apply F|apply F|]. destruct (F z) as [v ->]. apply H. lia. }
  unfold extend1. destruct (x <? 0)%Z; [apply G, H0|]. destruct (x <? n)%Z; [apply F|apply G, H1].
Qed.

Definition cells (n : nat) (x : nat -> vec) : buf vec := mkbuf n (fun a => if a <? n then Some (x a) else None).
Lemma cells_ok n x a : a < n -> bdat (cells n x) a = Some (x a).
Proof using. intros H. cbn [cells bdat]. now rewrite (proj2 (Nat.ltb_lt _ _) H). Qed.
Lemma cells_u n x u : holds n u x -> Ru vec num (fun x y => y = Some x) (cells n x) u.
Proof using.
  intros [L H]. split; [symmetry; exact L|]. intros a y. cbn [cells bdat]. destruct (Nat.ltb_spec a n) as [La|_]; [|discriminate]. intros [= <-]. rewrite H by exact La. eauto.
Qed.

Theorem ader_total_1d nx bt u ub0 mask x :
  N o <= nx -> total_walls bt 1 -> total_predictor 1 -> holds nx u x -> blen mask = extended_dimensions [nx] 1 -> StepperProps.initialised mask -> blen ub0 = extended_dimensions [nx] (N o) ->
  exists ub u' x', boundaries num (N o) wallf u ub0 [nx] bt = Ok ub /\ ader u ub mask [nx] = Ok u' /\ holds nx u' x'.
Proof using HR HN HW HP.
  intros Nn HK HS Hu Lm0 [mk Hm] Lb. pose proof HR as [HV [HF [D0 D1]]]. pose proof HW as [_ [_ [N1 _]]]. rewrite HN in N1. pose proof Hu as [Lu Du].
  assert (Lm : blen mask = nx + 2) by (rewrite Lm0; cbn; lia). rewrite Lm in Hm.
  destruct (boundaries_1d_correct num (N o) wallf u ub0 nx bt (fun i => Some (x i)) Nn ltac:(lia) ltac:(intros k Hk; apply HK; lia) Lu Du Lb) as [ub [Eb [Lub Wub]]].
  exists ub. assert (FU : finite_full (nx + 2 * N o) ub).
  { split; [exact Lub|]. intros a Ha. rewrite Wub by exact Ha. edestruct extend1_finite as [v E]; [| | |rewrite E; eauto]; [eauto|apply (HK 0); lia|apply (HK 1); lia]. }
  destruct (weno_finite_1d nx ub FU) as [wh [Ewh Rw]]. replace ((nx + 2) * N o) with ((nx + 2) * N o ^ 1) in Rw by (rewrite Nat.pow_1_r; reflexivity).
  destruct (predictor_finite 1 (nx + 2) wh mask N1 HS Rw Lm ltac:(intros i Hi; exists (mk i); apply rd_ok; [lia|apply Hm, Hi])) as [qh [q [Eqh [Lq [Sq Vq]]]]].
  assert (H1 : holds1 o true nx (cells nx x) (strip qh) mask x (fun i t => q (i * N o + t)) mk).
  { split; [reflexivity|]. split; [intros c Hc; apply cells_ok, Hc|]. split.
    - intros i t Hi Ht. cbn [nt_of] in *. assert (B : i * N o + t < (nx + 2) * N o) by (apply pack_bound; assumption).
      apply rd_ok; cbn [strip blen bdat]; [lia|]. rewrite Sq. reflexivity.
    - intros i Hi. apply rd_ok; [lia|apply Hm; lia]. }
  destruct (fv_launcher_1d o ph NODES WGHTS ENDVALS DERVALS true true FLUX dt dX nx (cells nx x) (strip qh) mask _ _ _ HR H1) as [u2 [x2 [E2 [L2 [V2 _]]]]].
  destruct (fv_is_ader o ph NODES WGHTS ENDVALS DERVALS FLUX dt dX HF SIG LAMS LAMC EPS inv prim Phi
     (cells nx x) ub mask [nx] u2 wh qh q u (or_introl eq_refl)) as [u' [Ea Ru']].
  - cbn [length]. rewrite Nat.pow_1_r. replace (extended_dimensions [nx] 1) with (nx + 2) by (cbn; lia). exact Ewh.
  - cbn [length]. replace (extended_dimensions [nx] 1) with (nx + 2) by (cbn; lia). exact Eqh.
  - exact Vq.
  - exact E2.
  - apply cells_u, Hu.
  - exists u', x2. split; [exact Eb|]. split; [exact Ea|]. destruct Ru' as [RL RV]. split; [congruence|]. intros c Hc. destruct (RV c (x2 c) (V2 c Hc)) as [y [Ey ->]]. exact Ey.
Qed.

Theorem ader_total_2d nx ny bt u ub0 mask x :
  N o <= nx -> N o <= ny -> (NO_CORNERS o = true -> enough (N o) (nx + 2) (N o)) -> total_walls bt 2 -> total_predictor 2 ->
  holds (nx * ny) u x -> blen mask = extended_dimensions [nx; ny] 1 -> StepperProps.initialised mask -> blen ub0 = extended_dimensions [nx; ny] (N o) ->
  exists ub u' x', boundaries num (N o) wallf u ub0 [nx; ny] bt = Ok ub /\ ader u ub mask [nx; ny] = Ok u' /\ holds (nx * ny) u' x'.
Proof using HR HN HW HP.
  intros Nn Ny HE HK HS Hu Lm0 [mk Hm] Lb. pose proof HR as [HV [HF [D0 D1]]]. pose proof HW as [_ [_ [N1 _]]]. rewrite HN in N1. pose proof Hu as [Lu Du].
  assert (Lm : blen mask = (nx + 2) * (ny + 2)) by (rewrite Lm0; unfold extended_dimensions; cbn; lia). rewrite Lm in Hm.
  destruct (boundaries_2d_correct num (N o) wallf u ub0 nx ny bt (fun i j => Some (x (i * ny + j))) Nn ltac:(lia) Ny ltac:(lia) ltac:(intros k Hk; apply HK; lia) Lu) as [ub [Eb [Lub Wub]]];
    [intros i j Hi Hj; apply Du, pack_bound; assumption|exact Lb|].
  exists ub. assert (FU : finite_full ((nx + 2 * N o) * (ny + 2 * N o)) ub).
  { split; [exact Lub|]. intros a Ha. rewrite (Nat.div_mod_eq a (ny + 2 * N o)), (Nat.mul_comm (ny + 2 * N o)). rewrite Wub; [|apply Nat.div_lt_upper_bound; lia|apply Nat.mod_upper_bound; lia].
    unfold extend2. edestruct extend1_finite as [v E]; [| | |rewrite E; eauto]; [|apply (HK 2); lia|apply (HK 3); lia].
    intros y. apply extend1_finite; [eauto|apply (HK 0); lia|apply (HK 1); lia]. }
  destruct (weno_finite_2d nx ny ub HE FU) as [wh [Ewh Rw]].
  destruct (predictor_finite 2 ((nx + 2) * (ny + 2)) wh mask N1 HS Rw Lm ltac:(intros i Hi; exists (mk i); apply rd_ok; [lia|apply Hm, Hi])) as [qh [q [Eqh [Lq [Sq Vq]]]]].
  assert (DX : extended_dimensions [nx; ny] 1 = (nx + 2) * (ny + 2)) by (unfold extended_dimensions; cbn; lia).
  assert (H1 : holds2 o true nx ny (cells (nx * ny) x) (strip qh) mask (fun a b => x (a * ny + b)) (fun i j t => q ((i * (ny + 2) + j) * N o + t)) (fun i j => mk (i * (ny + 2) + j))).
  { split; [reflexivity|]. split; [intros a b Ha Hb; apply cells_ok, pack_bound; assumption|]. split.
    - intros i j t Hi Hj Ht. cbn [nt_of] in *. assert (B : (i * (ny + 2) + j) * N o + t < (nx + 2) * (ny + 2) * N o) by (do 2 (apply pack_bound; try assumption)).
      apply rd_ok; cbn [strip blen bdat]; [lia|]. rewrite Sq. reflexivity.
    - intros i j Hi Hj. assert (B : i * (ny + 2) + j < (nx + 2) * (ny + 2)) by (apply pack_bound; assumption). apply rd_ok; [lia|apply Hm, B]. }
  destruct (fv_launcher_2d o ph NODES WGHTS ENDVALS DERVALS true true FLUX dt dX nx ny (cells (nx * ny) x) (strip qh) mask _ _ _ HR H1) as [u2 [x2 [E2 [L2 [V2 _]]]]].
  destruct (fv_is_ader o ph NODES WGHTS ENDVALS DERVALS FLUX dt dX HF SIG LAMS LAMC EPS inv prim Phi
     (cells (nx * ny) x) ub mask [nx; ny] u2 wh qh q u (or_intror eq_refl)) as [u' [Ea Ru']].
  - cbn [length]. rewrite DX. exact Ewh.
  - cbn [length]. rewrite DX. exact Eqh.
  - exact Vq.
  - exact E2.
  - apply cells_u, Hu.
  - exists u', (fun c => x2 (c / ny) (c mod ny)). split; [exact Eb|]. split; [exact Ea|]. destruct Ru' as [RL RV]. split; [congruence|]. intros c Hc. assert (Y0 : ny <> 0) by lia.
    assert (Ha : c / ny < nx) by (apply Nat.div_lt_upper_bound; lia). pose proof (Nat.mod_upper_bound c ny Y0) as Hb.
    destruct (RV c (x2 (c / ny) (c mod ny))) as [y [Ey ->]]; [|exact Ey]. rewrite (Nat.div_mod_eq c ny) at 1. rewrite (Nat.mul_comm ny). apply V2; assumption.
Qed.
End C74.
Print Assumptions ader_total_1d.
Print Assumptions ader_total_2d.

(** a field that is not uniform and a predictor that meet the hypotheses, in 1-D and 2-D, with the shipped options *)
Example ader_total_case : exists nodes bs inv SIG Phi, weno_setup nodes bs inv SIG 1 100000 (1 / 100) /\ length nodes = N shipped /\
  total_predictor shipped Phi 1 /\ total_predictor shipped Phi 2 /\ enough (N shipped) (4 + 2) (N shipped) /\
  holds 4 (mkbuf 4 (fun a => Some (Some (fun _ => INR a)))) (fun a _ => INR a).
Proof.
  destruct (weno_hyps [1 / 2 - 1 / 4; 1 / 2 + 1 / 4]%R weno_nodes ltac:(cbn; lia)) as [bs [inv [SIG HW]]].
  exists [1 / 2 - 1 / 4; 1 / 2 + 1 / 4]%R, bs, inv, SIG, (fun _ l => Ok (Some (fun _ => view l))). split; [exact HW|]. split; [reflexivity|].
  assert (T : forall ndim, total_predictor shipped (fun _ l => Ok (Some (fun _ => view l))) ndim).
  { intros ndim l _ F. eexists. split; [reflexivity|]. intros t _. unfold view. replace (all_finite l) with true; [eauto|].
    symmetry. apply forallb_forall. intros x Hx. rewrite Forall_forall in F. destruct (F x Hx) as [v ->]. reflexivity. }
  split; [apply T|]. split; [apply T|]. split; [unfold enough; cbn; lia|]. split; [reflexivity|]. reflexivity.
Qed.
(** the hypotheses of C20 with the shipped options: Picard iteration in 1-D, a root finder in 2-D *)
Example ader_uniform_case : exists nodes bs w inv SIG solve nonlin_solve, dg_basis nodes bs w /\ weno_setup nodes bs inv SIG 1 100000 (1 / 100) /\
  length nodes = N shipped /\
  predictor_setup shipped nodes bs w 50 (6 / 1000000) solve nonlin_solve (fun _ => true) false true (fun _ => 1%R) 1 /\
  predictor_setup shipped nodes bs w 50 (6 / 1000000) solve nonlin_solve (fun _ => true) true false (fun _ => 1%R) 2 /\
  keeps_state (fun _ _ x => x) (fun _ => 1%R) 2 (fun k => k).
Proof.
  destruct dg_basis_hyps as [nodes [bs [w [G L]]]]. pose proof G as [Dn [Bn _]]. destruct (weno_hyps nodes Dn ltac:(lia)) as [bs' [inv [SIG HW]]].
  pose proof HW as [_ [Bn' _]]. rewrite Bn in Bn'. injection Bn' as <-. destruct (two_node_solver shipped nodes bs w G eq_refl L) as [solve S].
  exists nodes, bs, w, inv, SIG, (fun _ => solve), (fun _ x => Ok x). split; [exact G|]. split; [exact HW|]. split; [exact L|]. split; [|split].
  - split; [reflexivity|]. split; [reflexivity|]. split; [lia|]. split; [lra|exact S].
  - split; [reflexivity|]. split; [discriminate|]. intros F x y _ _. reflexivity.
  - intros k Hk. split; [lia|]. reflexivity.
Qed.

(** ** several steps *)
Section Runs.
Variable o : options.
Variable ph : phys.
Variables NODES WGHTS : nat -> R.
Variables ENDVALS DERVALS : nat -> nat -> R.
Variables (FLUX : nat) (dX : nat -> R).
Variables (SIG : nat -> nat -> R) (LAMS LAMC EPS : R) (inv : stencil -> (nat -> R) -> nat -> R).
Variable prim : option ((num -> num) * (num -> num)).
Variable Phi : R -> nat -> list num -> res (option (nat -> option nodal)).
Variable wallf : nat -> nat -> num -> num.
Notation ader dt := (ader_with o ph NODES WGHTS ENDVALS DERVALS FLUX dt dX SIG LAMS LAMC EPS inv prim (Phi dt)).

(** a history of steps, each with its own dt, whose states are numbers *)
Inductive history (nX : list nat) (n : nat) (bt : nat -> nat) : list R -> (nat -> vec) -> (nat -> vec) -> Prop :=
| history_nil x : history nX n bt [] x x
| history_cons dt dts u ub0 ub mask u1 x x1 x2 : holds n u x -> full_mask nX mask -> blen ub0 = extended_dimensions nX (N o) ->
    boundaries num (N o) wallf u ub0 nX bt = Ok ub -> ader dt u ub mask nX = Ok u1 -> holds n u1 x1 ->
    history nX n bt dts x1 x2 -> history nX n bt (dt :: dts) x x2.

Theorem ader_history_conserves_1d nx bt dts x x' : runs o FLUX dX -> 1 <= N o <= nx -> bt 0 = PERIODIC -> bt 1 = PERIODIC ->
  history [nx] nx bt dts x x' -> forall k, conserved o k -> (forall Q, source ph Q k = 0%R) -> total1 nx x' k = total1 nx x k.
Proof.
  intros HR HN B0 B1 H k Hk HS. induction H as [x|dt dts u ub0 ub mask u1 x x1 x2 Hu Hm Lb Eb Ea Hu1 _ IH]; [reflexivity|].
  rewrite IH. eapply ader_periodic_conserves_1d; eassumption.
Qed.
Theorem ader_history_conserves_2d_partial nx ny bt dts x x' : runs o FLUX dX -> NO_CORNERS o = false -> 1 <= N o <= nx -> N o <= ny -> (forall k, k < 4 -> bt k = PERIODIC) ->
  history [nx; ny] (nx * ny) bt dts x x' -> forall k, conserved o k -> (forall Q, source ph Q k = 0%R) ->
  total2 nx ny (fun a b => x' (a * ny + b)) k = total2 nx ny (fun a b => x (a * ny + b)) k.
Proof.
  intros HR NC HN Ny HB H k Hk HS. induction H as [x|dt dts u ub0 ub mask u1 x x1 x2 Hu Hm Lb Eb Ea Hu1 _ IH]; [reflexivity|].
  rewrite IH. eapply ader_periodic_conserves_2d_partial; eassumption.
Qed.
End Runs.
Print Assumptions ader_history_conserves_1d.
Print Assumptions ader_history_conserves_2d_partial.
