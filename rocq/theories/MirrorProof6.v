(** The space-time predictor in one cell under mirror images. *)
From Coq Require Import Reals Lia Lra ZArith FunctionalExtensionality.
From Verif Require Import Base Options Sum EqModel EqSpec EqProof FvModel FvBody FvSpec FvProof2 PolyModel WenoModel WenoProof DgModel DgSpec DgProof2 DgProof3 DgProps RefSpec MirrorSpec MirrorProof MirrorProof2.
Import List ListNotations.
Open Scope R_scope.

Section Predictor.
Variable o : options.
Variable ph : phys.
Variables (nodes : list R) (bs : list poly) (w : nat -> R).
Variables (dt : R) (dX : nat -> R) (DG_IT : nat) (DG_TOL : R) (solve : nat -> nodal -> nodal).
Variable nonlin_solve : (option nodal -> res (option nodal)) -> option nodal -> res (option nodal).
Variables (valid : nodal -> bool) (nan_far : option nodal -> option nodal -> bool).
Variable FLUX : nat.
Notation N := (Options.N o).
Notation T := (mirror o).
Notation sg := (sign o).
Notation x := (fun i => nth i nodes 0).
Notation E := (end_values bs).
Notation Der := (Dv bs nodes).
Notation D := (Dmat bs (fun k => nth k nodes 0) w).
Notation M := (Mof nodes bs w).
Hypothesis HP : mirrors o ph FLUX.
Hypothesis HM : MULTI o = false.
Hypothesis HV : VISCOUS o = true.
Hypothesis HL : length nodes = N.
Hypothesis HB : dg_basis nodes bs w.
Hypothesis HS : forall i, (i < N)%nat -> x (N - 1 - i)%nat = 1 - x i.
Hypothesis Hsolve : solves (N * N) (kron [full N M; diagonal N w]) (solve 1).
Hypothesis Hvalid : forall q, valid q = true.
Notation PHI := (Phi o ph w E Der D M dt dX DG_IT DG_TOL solve nonlin_solve valid nan_far false false).
Notation rhs := (rhs1 o ph w Der D dt (dX 0%nat)).

Lemma HwM i : (i < N)%nat -> w (N - 1 - i)%nat = w i.
Proof using HL HB HS. pose proof HB as (D0 & B & _). rewrite <- HL. intros Hi. pose proof HS as HS'. rewrite <- HL in HS'. apply (weights_mirror nodes bs D0 B HS' w i HB Hi). Qed.
Lemma HderM i j : (i < N)%nat -> (j < N)%nat -> Der (N - 1 - i)%nat (N - 1 - j)%nat = - Der i j.
Proof using HL HB HS. pose proof HB as (D0 & B & _). rewrite <- HL. intros Hi Hj. pose proof HS as HS'. rewrite <- HL in HS'. apply (der_mirror nodes bs D0 B HS' i j Hi Hj). Qed.
Lemma HendM e j : (e < 2)%nat -> (j < N)%nat -> E (1 - e)%nat (N - 1 - j)%nat = E e j.
Proof using HL HB HS. pose proof HB as (D0 & B & _). rewrite <- HL. intros Hi Hj. pose proof HS as HS'. rewrite <- HL in HS'. apply (ends_mirror nodes bs D0 B HS' e j Hi Hj). Qed.
Lemma D_mirror i j : (i < N)%nat -> (j < N)%nat -> D (N - 1 - i)%nat (N - 1 - j)%nat = - D i j.
Proof using HL HB HS.
  intros Hi Hj. unfold Dmat. destruct (Nat.eqb_spec i j) as [<-|Ne].
  - rewrite Nat.eqb_refl. pose proof (HendM 0 i ltac:(lia) Hi) as A. pose proof (HendM 1 i ltac:(lia) Hi) as B. unfold end_values in A, B. cbn [Nat.sub Nat.eqb] in A, B. rewrite A, B. lra.
  - destruct (Nat.eqb_spec (N - 1 - i) (N - 1 - j)); [lia|]. rewrite HwM by exact Hi. pose proof (HderM i j Hi Hj) as A. unfold Dv in A. rewrite A. ring.
Qed.

(** the space-time nodes of the mirrored cell *)
Definition swapped (q q' : nodal) : Prop := forall t i, (t < N)%nat -> (i < N)%nat -> q' (t * N + i)%nat = T (q (t * N + (N - 1 - i))%nat).
Lemma rhs_swapped q q' W W' m m' : swapped q q' -> swapped W W' -> rhs q W = Ok m -> rhs q' W' = Ok m' -> swapped m m'.
Proof using HP HM HV HL HB HS.
  intros Hq HW E1 E2 t i Ht Hi. pose proof (N_pos o nodes bs w HL HB) as N1.
  destruct (rhs1_ok o ph HV w Der D N1 dt (dX 0%nat) q W) as (p & P1 & P2). rewrite P1 in E1. injection E1 as <-.
  destruct (rhs1_ok o ph HV w Der D N1 dt (dX 0%nat) q' W') as (p' & P1' & P2'). rewrite P1' in E2. injection E2 as <-.
  assert (L : (t * N + i < N * N)%nat) by (apply pack_lt; assumption). assert (L' : (t * N + (N - 1 - i) < N * N)%nat) by (apply pack_lt; lia).
  rewrite P2', P2 by assumption. cbv zeta. apply functional_extensionality. intros k. unfold mirror at 1.
  destruct (divmod N t i Hi) as [-> ->]. destruct (divmod N t (N - 1 - i) ltac:(lia)) as [-> ->]. rewrite HW, Hq by assumption.
  rewrite !bdot_spec by (exact HV || lia). rewrite (mi_source _ _ _ HP). rewrite HwM by exact Hi.
  replace (fun k0 => derivs1d o Der (fun s => q' (t * N + s)%nat) i k0 / dX 0%nat) with (fun j => - (sg j * (derivs1d o Der (fun s => q (t * N + s)%nat) (N - 1 - i)%nat j / dX 0%nat))).
  2:{ apply functional_extensionality. intros j. rewrite (derivs_mirrored o Der HderM (fun s => q (t * N + s)%nat) (fun s => q' (t * N + s)%nat) (sg j)); [unfold Rdiv; ring|exact Hi|]. intros r Hr. rewrite Hq by assumption. reflexivity. }
  rewrite noncons_mirror. unfold mirror at 1 2.
  rewrite (rsum_rev N (fun j => D i j * _)).
  rewrite (rsum_ext N _ (fun j => sg k * (D (N - 1 - i)%nat j * flux o ph (fun _ => 0) (q (t * N + j)%nat) 0 k))).
  - rewrite rsum_scal. unfold Rdiv. ring.
  - intros j Hj. rewrite Hq by lia. rewrite (flux_mirror o ph FLUX HP HM HV). replace (N - 1 - (N - 1 - j))%nat with j by lia.
    pose proof (D_mirror (N - 1 - i) j ltac:(lia) Hj) as A. replace (N - 1 - (N - 1 - i))%nat with i in A by lia. rewrite A. ring.
Qed.
Lemma solve_swapped b b' : swapped b b' -> swapped (solve 1 b) (solve 1 b').
Proof using HL HB HS Hsolve.
  intros Hb t i Ht Hi. pose proof (N_pos o nodes bs w HL HB) as N1. pose proof (solves_U1 o nodes bs w (solve 1) Hsolve) as S.
  apply functional_extensionality. intros k.
  set (p := fun r => T (solve 1 b (r / N * N + (N - 1 - r mod N))%nat)).
  assert (A : forall r, (r < N * N)%nat -> solve 1 b' r k = p r k).
  { apply (U1_inj o w M N1 (M_injective o nodes bs w HL HB) (weights_nonzero o nodes bs w HL HB)). intros r Hr. rewrite S by exact Hr. rewrite U1_row by (exact N1 || exact Hr).
    assert (Ht' : (r / N < N)%nat) by (apply Nat.div_lt_upper_bound; lia). pose proof (Nat.mod_upper_bound r N ltac:(lia)) as Hi'.
    assert (Er : r = (r / N * N + r mod N)%nat) by (rewrite Nat.mul_comm; apply Nat.div_mod; lia). rewrite Er at 1. rewrite Hb by assumption. unfold mirror at 1.
    rewrite <- (S b (r / N * N + (N - 1 - r mod N))%nat k) by (apply pack_lt; lia). rewrite U1_row by (exact N1 || apply pack_lt; lia).
    destruct (divmod N (r / N) (N - 1 - r mod N) ltac:(lia)) as [-> ->]. rewrite <- rsum_scal. apply rsum_ext. intros m Hm. unfold p. destruct (divmod N m (r mod N) Hi') as [-> ->].
    rewrite HwM by exact Hi'. unfold mirror. ring. }
  rewrite A by (apply pack_lt; assumption). unfold p. destruct (divmod N t i Hi) as [-> ->]. reflexivity.
Qed.
Lemma far_swapped a b a' b' : swapped a a' -> swapped b b' -> far o DG_TOL nan_far (N * N) (Some a') (Some b') = far o DG_TOL nan_far (N * N) (Some a) (Some b).
Proof using HL HB.
  clear - HL HB. intros Ha Hb. pose proof (N_pos o nodes bs w HL HB) as N1.
  assert (Ab : forall k z, Rabs (sg k * z) = Rabs z).
  { intros k z. rewrite Rabs_mult. replace (Rabs (sg k)) with 1; [ring|]. pose proof (sign_sq o k) as Q. assert (sg k = 1 \/ sg k = -1) as [-> | ->] by (assert ((sg k - 1) * (sg k + 1) = 0) as Z by lra; apply Rmult_integral in Z; lra).
    - rewrite Rabs_R1. reflexivity.
    - rewrite Rabs_left by lra. lra. }
  assert (X : forall t i k, (t < N)%nat -> (i < N)%nat -> Rabs (a' (t * N + i)%nat k - b' (t * N + i)%nat k) = Rabs (a (t * N + (N - 1 - i))%nat k - b (t * N + (N - 1 - i))%nat k) /\ Rabs (b' (t * N + i)%nat k) = Rabs (b (t * N + (N - 1 - i))%nat k)).
  { intros t i k Ht Hi. rewrite Ha, Hb by assumption. unfold mirror. rewrite <- Rmult_minus_distr_l, !Ab. auto. }
  apply Bool.eq_true_iff_eq. cut (far o DG_TOL nan_far (N * N) (Some a') (Some b') = false <-> far o DG_TOL nan_far (N * N) (Some a) (Some b) = false).
  { destruct (far o DG_TOL nan_far (N * N) (Some a') (Some b')), (far o DG_TOL nan_far (N * N) (Some a) (Some b)); intuition congruence. }
  rewrite !far_close. split; intros H r k Hr Hk; (assert (Ht' : (r / N < N)%nat) by (apply Nat.div_lt_upper_bound; lia)); pose proof (Nat.mod_upper_bound r N ltac:(lia)) as Hi';
    (assert (Er : r = (r / N * N + r mod N)%nat) by (rewrite Nat.mul_comm; apply Nat.div_mod; lia)).
  - specialize (H (r / N * N + (N - 1 - r mod N))%nat k ltac:(apply pack_lt; lia) Hk). destruct (X (r / N)%nat (N - 1 - r mod N)%nat k Ht' ltac:(lia)) as [X1 X2]. rewrite X1, X2 in H.
    replace (N - 1 - (N - 1 - r mod N))%nat with (r mod N)%nat in H by lia. rewrite <- Er in H. exact H.
  - specialize (H (r / N * N + (N - 1 - r mod N))%nat k ltac:(apply pack_lt; lia) Hk). destruct (X (r / N)%nat (r mod N)%nat k Ht' Hi') as [X1 X2]. rewrite <- Er in X1, X2. rewrite X1, X2. exact H.
Qed.

Lemma view_mirror q : view (map (fun s => Some (q s)) (seq 0 (N ^ 1))) = Some (fun s => match nth s (map (fun s => Some (q s)) (seq 0 (N ^ 1))) None with Some v => v | None => fun _ => 0 end).
Proof using.
  unfold view. replace (all_finite _) with true; [reflexivity|]. symmetry. apply forallb_forall. intros y Hy. apply in_map_iff in Hy. destruct Hy as (s & <- & _). reflexivity.
Qed.
Lemma picard_swapped nc nc' W W' : swapped W W' -> forall count q q', swapped q q' ->
  match picard o DG_TOL nan_far (N * N) count (fun q => lift valid (fun q => r <- rhs q W ;; Ok (solve 1 r)) q) nc (Some q),
        picard o DG_TOL nan_far (N * N) count (fun q => lift valid (fun q => r <- rhs q W' ;; Ok (solve 1 r)) q) nc' (Some q') with
  | Ok None, Ok None => True
  | Ok (Some (Some p)), Ok (Some (Some p')) => swapped p p'
  | _, _ => False
  end.
Proof using HP HM HV HL HB HS Hsolve Hvalid.
  intros HW. pose proof (N_pos o nodes bs w HL HB) as N1. induction count as [|c IH]; intros q q' Hq; [exact I|]. cbn [picard]. cbn [lift]. rewrite !Hvalid.
  destruct (rhs1_ok o ph HV w Der D N1 dt (dX 0%nat) q W) as (p & P1 & _). destruct (rhs1_ok o ph HV w Der D N1 dt (dX 0%nat) q' W') as (p' & P1' & _).
  pose proof (solve_swapped _ _ (rhs_swapped q q' W W' p p' Hq HW P1 P1')) as HR. rewrite P1, P1'. cbn [bind].
  rewrite (far_swapped (solve 1 p) q (solve 1 p') q' HR Hq). destruct (far _ _ _ _ _ _); [|exact HR]. apply IH. exact HR.
Qed.
Lemma nth_view q s : (s < N)%nat -> match nth s (map (fun s => Some (q s)) (seq 0 (N ^ 1))) None with Some v => v | None => fun _ => 0 end = (q s : vec).
Proof using.
  clear HL. intros Hs. rewrite nth_indep with (d := None) (d' := (fun s => Some (q s)) 0%nat) by (rewrite map_length, seq_length; cbn; lia). rewrite (map_nth (fun s => Some (q s))). rewrite seq_nth by (cbn; lia). reflexivity.
Qed.

Theorem predictor_mirrored q q' t : (t < N)%nat -> mirrored o q q' -> mirrored o (predicted o PHI 1 q t) (predicted o PHI 1 q' t).
Proof using HP HM HV HL HB HS Hsolve Hvalid.
  intros Ht Hq. pose proof (N_pos o nodes bs w HL HB) as N1. unfold predicted, Phi, predictor_cell. rewrite !view_mirror. cbn [option_map bind]. replace (N ^ (1 + 1))%nat with (N * N)%nat by (cbn; lia).
  set (v := fun s => match nth s (map (fun s => Some (q s)) (seq 0 (N ^ 1))) None with Some v => v | None => fun _ => 0 end).
  set (v' := fun s => match nth s (map (fun s => Some (q' s)) (seq 0 (N ^ 1))) None with Some v => v | None => fun _ => 0 end).
  assert (Vv : forall s, (s < N)%nat -> v' s = T (v (N - 1 - s)%nat)) by (intros s Hs; unfold v, v'; rewrite !nth_view by lia; apply Hq; exact Hs).
  match goal with |- context [picard _ _ _ _ _ _ ?n1 (Some ?a)] => match goal with |- context [picard _ _ _ _ _ _ ?n2 (Some (standard_initial_guess _ _ v'))] =>
    pose proof (picard_swapped n1 n2 (initial_condition1 o w E v) (initial_condition1 o w E v')) as P end end.
  assert (HW : swapped (initial_condition1 o w E v) (initial_condition1 o w E v')).
  { intros r i Hr Hi. apply functional_extensionality. intros k. unfold initial_condition1, mirror at 1. cbv zeta. destruct (divmod N r i Hi) as [-> ->]. destruct (divmod N r (N - 1 - i) ltac:(lia)) as [-> ->].
    rewrite Vv by exact Hi. rewrite HwM by exact Hi. unfold mirror. ring. }
  specialize (P HW DG_IT (standard_initial_guess o 1 v) (standard_initial_guess o 1 v')).
  assert (H0 : swapped (standard_initial_guess o 1 v) (standard_initial_guess o 1 v')).
  { intros r i Hr Hi. unfold standard_initial_guess. replace (N ^ 1)%nat with N by (cbn; lia). destruct (divmod N r i Hi) as [_ ->]. destruct (divmod N r (N - 1 - i) ltac:(lia)) as [_ ->]. apply Vv, Hi. }
  specialize (P H0). unfold initial_condition, DgModel.rhs.
  destruct (picard _ _ _ _ _ _ _ (Some (standard_initial_guess o 1 v))) as [[[p|]|]| | |], (picard _ _ _ _ _ _ _ (Some (standard_initial_guess o 1 v'))) as [[[p'|]|]| | |]; try contradiction; cbn [bind option_map time_blocks].
  - intros s Hs. replace (N ^ 1)%nat with N by (cbn; lia). apply P; assumption.
  - intros s Hs. apply functional_extensionality. intros k. unfold mirror. ring.
Qed.
End Predictor.
