(** The space-time predictor of dg2.cpp in a cell whose data do not vary along y is that of dg1.cpp. *)
From Coq Require Import Reals Lia Lra ZArith FunctionalExtensionality.
From Verif Require Import Base Options Sum EqModel EqSpec EqProof FvModel FvBody FvSpec FvProof2 FvProps PolyModel WenoModel WenoProof DgModel DgSpec DgProof2 DgProof3 DgProps AderProof4 RefSpec RefProof FlatProof.
Import List ListNotations.
Open Scope R_scope.

Section Predictor.
Variable o : options.
Variable ph : phys.
Variables (nodes : list R) (bs : list poly) (w : nat -> R).
Variables (dt : R) (dX dX' : nat -> R) (DG_IT : nat) (DG_TOL : R) (solve solve' : nat -> nodal -> nodal).
Variables nonlin_solve nonlin_solve' : (option nodal -> res (option nodal)) -> option nodal -> res (option nodal).
Variables (valid : nodal -> bool) (nan_far : option nodal -> option nodal -> bool).
Notation N := (Options.N o).
Notation E := (end_values bs).
Notation Der := (Dv bs nodes).
Notation D := (Dmat bs (fun k => nth k nodes 0) w).
Notation M := (Mof nodes bs w).
Hypothesis HV : VISCOUS o = true.
Hypothesis HL : length nodes = N.
Hypothesis HB : dg_basis nodes bs w.
Hypothesis Hsolve : solves (N * N) (kron [full N M; diagonal N w]) (solve 1).
Hypothesis Hsolve' : solves (N * N * N) (kron [full N M; diagonal N w; diagonal N w]) (solve' 2).
Hypothesis Hvalid : forall q, valid q = true.
Hypothesis Hd : dX' 0%nat = dX 0%nat.
Notation PHI := (Phi o ph w E Der D M dt dX DG_IT DG_TOL solve nonlin_solve valid nan_far false false).
Notation PHI' := (Phi o ph w E Der D M dt dX' DG_IT DG_TOL solve' nonlin_solve' valid nan_far false false).
Notation rhs := (rhs1 o ph w Der D dt (dX 0%nat)).
Notation rhs' := (rhs2 o ph w Der D dt (dX' 0%nat) (dX' 1%nat)).

(** space-time nodes: constant along y; weighted by the weight of the node along y *)
Definition same_rows (q q' : nodal) : Prop := forall t i j, (t < N)%nat -> (i < N)%nat -> (j < N)%nat -> q' ((t * N + i) * N + j)%nat = q (t * N + i)%nat.
Definition weighted_rows (q q' : nodal) : Prop := forall t i j k, (t < N)%nat -> (i < N)%nat -> (j < N)%nat -> q' ((t * N + i) * N + j)%nat k = w j * q (t * N + i)%nat k.
Lemma pack3 t i j : (t < N -> i < N -> j < N -> (t * N + i) * N + j < N * N * N)%nat.
Proof using. clear HL. intros. apply pack_lt; [apply pack_lt|]; assumption. Qed.
Lemma rhs_rows q q' W W' m m' : same_rows q q' -> weighted_rows W W' -> rhs q W = Ok m -> rhs' q' W' = Ok m' -> weighted_rows m m'.
Proof using HV HL HB Hd.
  intros Hq HW E1 E2 t i j k Ht Hi Hj. pose proof (N_pos o nodes bs w HL HB) as N1. destruct (tables o nodes bs w HL HB) as (_ & TD & TR & _).
  destruct (rhs1_ok o ph HV w Der D N1 dt (dX 0%nat) q W) as (p & P1 & P2). rewrite P1 in E1. injection E1 as <-.
  destruct (rhs2_ok o ph HV w Der D N1 dt (dX' 0%nat) (dX' 1%nat) q' W') as (p' & P1' & P2'). rewrite P1' in E2. injection E2 as <-.
  rewrite P2' by (apply pack3; assumption). rewrite P2 by (apply pack_lt; assumption). cbv zeta.
  destruct (divmod3 o N1 t i j Hi Hj) as (-> & -> & ->). destruct (divmod N t i Hi) as [-> ->]. rewrite HW, Hq by assumption. rewrite Hd.
  assert (Q : forall a b, (a < N)%nat -> (b < N)%nat -> q' (t * (N * N) + (a * N + b))%nat = q (t * N + a)%nat).
  { intros a b Ha Hb. rewrite <- (Hq t a b Ht Ha Hb). f_equal. lia. }
  rewrite !bdot_spec by (exact HV || lia).
  replace (fun k0 => derivs2d o Der (fun s => q' (t * (N * N) + s)%nat) 0 (i * N + j)%nat k0 / dX 0%nat) with (fun k0 => derivs1d o Der (fun s => q (t * N + s)%nat) i k0 / dX 0%nat).
  2:{ apply functional_extensionality. intros k0. f_equal. unfold derivs1d, derivs2d. destruct (divmod N i j Hj) as [-> ->]. apply rsum_ext. intros r Hr. rewrite Q by assumption. reflexivity. }
  rewrite (noncons_0 o _ _ 1).
  2:{ intros k0. unfold derivs2d. destruct (divmod N i j Hj) as [-> ->]. rewrite (rsum_ext _ _ (fun r => q (t * N + i)%nat k0 * Der j r)) by (intros r Hr; rewrite Q by assumption; ring). rewrite rsum_scal, TD by exact Hj. unfold Rdiv. ring. }
  rewrite (rsum_ext N (fun m : nat => D j m * _) (fun m => flux o ph (fun _ => 0) (q (t * N + i)%nat) 1 k * D j m)) by (intros r Hr; rewrite Hq by assumption; ring).
  rewrite rsum_scal, TR by exact Hj.
  rewrite (rsum_ext N (fun j' => w t * D i j' * _ / _) (fun j' => w t * w j / dX 0%nat * (D i j' * flux o ph (fun _ => 0) (q (t * N + j')%nat) 0 k))).
  - rewrite rsum_scal. unfold Rdiv. ring.
  - intros r Hr. rewrite Hq by assumption. destruct (divmod N (t * N + r) j Hj) as [_ ->]. unfold Rdiv. ring.
Qed.
Lemma solve_rows b b' : weighted_rows b b' -> same_rows (solve 1 b) (solve' 2 b').
Proof using HL HB Hsolve Hsolve'.
  intros Hb t i j Ht Hi Hj. pose proof (N_pos o nodes bs w HL HB) as N1. pose proof (solves_U1 o nodes bs w (solve 1) Hsolve) as S. pose proof (solves_U2 o nodes bs w HL HB (solve' 2) Hsolve') as S'.
  apply functional_extensionality. intros k.
  set (p := fun r => solve 1 b (r / N)%nat).
  assert (A : forall r, (r < N * N * N)%nat -> solve' 2 b' r k = p r k).
  { apply (U2_inj o w M N1 (M_injective o nodes bs w HL HB) (weights_nonzero o nodes bs w HL HB)). intros r Hr. rewrite S' by exact Hr. rewrite U2_row by (exact N1 || exact Hr).
    assert (Hti : (r / N < N * N)%nat) by (apply Nat.div_lt_upper_bound; lia).
    assert (Ht' : (r / N / N < N)%nat) by (apply Nat.div_lt_upper_bound; lia). pose proof (Nat.mod_upper_bound (r / N) N ltac:(lia)) as Hi'. pose proof (Nat.mod_upper_bound r N ltac:(lia)) as Hj'.
    assert (Er : r = ((r / N / N * N + (r / N) mod N) * N + r mod N)%nat).
    { rewrite (Nat.mul_comm (r / N / N)), <- (Nat.div_mod (r / N) N) by lia. rewrite Nat.mul_comm. apply Nat.div_mod. lia. }
    rewrite Er at 1. rewrite Hb by assumption.
    rewrite <- (S b (r / N / N * N + (r / N) mod N)%nat k) by (apply pack_lt; assumption). rewrite U1_row by (exact N1 || apply pack_lt; assumption).
    destruct (divmod N (r / N / N) (r / N mod N) Hi') as [-> ->]. rewrite <- rsum_scal. apply rsum_ext. intros m Hm. unfold p. destruct (divmod N (m * N + r / N mod N) (r mod N) Hj') as [-> _].
    rewrite Nat.div_div by lia. ring. }
  rewrite A by (apply pack3; assumption). unfold p. destruct (divmod N (t * N + i) j Hj) as [-> _]. reflexivity.
Qed.
Lemma far_rows a b a' b' : same_rows a a' -> same_rows b b' -> far o DG_TOL nan_far (N * N * N) (Some a') (Some b') = far o DG_TOL nan_far (N * N) (Some a) (Some b).
Proof using HL HB.
  clear - HL HB. intros Ha Hb. pose proof (N_pos o nodes bs w HL HB) as N1.
  apply Bool.eq_true_iff_eq. cut (far o DG_TOL nan_far (N * N * N) (Some a') (Some b') = false <-> far o DG_TOL nan_far (N * N) (Some a) (Some b) = false).
  { destruct (far o DG_TOL nan_far (N * N * N) (Some a') (Some b')), (far o DG_TOL nan_far (N * N) (Some a) (Some b)); intuition congruence. }
  rewrite !far_close. split; intros H r k Hr Hk.
  - assert (Ht' : (r / N < N)%nat) by (apply Nat.div_lt_upper_bound; lia). pose proof (Nat.mod_upper_bound r N ltac:(lia)) as Hi'.
    assert (Er : r = (r / N * N + r mod N)%nat) by (rewrite Nat.mul_comm; apply Nat.div_mod; lia).
    specialize (H ((r / N * N + r mod N) * N + 0)%nat k (pack3 (r / N) (r mod N) 0 Ht' Hi' N1) Hk).
    rewrite Ha, Hb in H by assumption. rewrite <- Er in H. exact H.
  - assert (Hti : (r / N < N * N)%nat) by (apply Nat.div_lt_upper_bound; lia).
    assert (Ht' : (r / N / N < N)%nat) by (apply Nat.div_lt_upper_bound; lia). pose proof (Nat.mod_upper_bound (r / N) N ltac:(lia)) as Hi'. pose proof (Nat.mod_upper_bound r N ltac:(lia)) as Hj'.
    assert (Er : r = ((r / N / N * N + (r / N) mod N) * N + r mod N)%nat).
    { rewrite (Nat.mul_comm (r / N / N)), <- (Nat.div_mod (r / N) N) by lia. rewrite Nat.mul_comm. apply Nat.div_mod. lia. }
    specialize (H (r / N / N * N + r / N mod N)%nat k (pack_lt _ _ _ _ Ht' Hi') Hk). rewrite Er, Ha, Hb by assumption. exact H.
Qed.
Lemma picard_rows nc nc' W W' : weighted_rows W W' -> forall count q q', same_rows q q' ->
  match picard o DG_TOL nan_far (N * N) count (fun q => lift valid (fun q => r <- rhs q W ;; Ok (solve 1 r)) q) nc (Some q),
        picard o DG_TOL nan_far (N * N * N) count (fun q => lift valid (fun q => r <- rhs' q W' ;; Ok (solve' 2 r)) q) nc' (Some q') with
  | Ok None, Ok None => True
  | Ok (Some (Some p)), Ok (Some (Some p')) => same_rows p p'
  | _, _ => False
  end.
Proof using HV HL HB Hsolve Hsolve' Hvalid Hd.
  intros HW. pose proof (N_pos o nodes bs w HL HB) as N1. induction count as [|c IH]; intros q q' Hq; [exact I|]. cbn [picard]. cbn [lift]. rewrite !Hvalid.
  destruct (rhs1_ok o ph HV w Der D N1 dt (dX 0%nat) q W) as (p & P1 & _). destruct (rhs2_ok o ph HV w Der D N1 dt (dX' 0%nat) (dX' 1%nat) q' W') as (p' & P1' & _).
  pose proof (solve_rows _ _ (rhs_rows q q' W W' p p' Hq HW P1 P1')) as HR. rewrite P1, P1'. cbn [bind].
  rewrite (far_rows (solve 1 p) q (solve' 2 p') q' HR Hq). destruct (far _ _ _ _ _ _); [|exact HR]. apply IH. exact HR.
Qed.
Lemma view_all n (q : nodal) : view (map (fun s => Some (q s)) (seq 0 n)) = Some (fun s => match nth s (map (fun s => Some (q s)) (seq 0 n)) None with Some v => v | None => fun _ => 0 end).
Proof using.
  unfold view. replace (all_finite _) with true; [reflexivity|]. symmetry. apply forallb_forall. intros y Hy. apply in_map_iff in Hy. destruct Hy as (s & <- & _). reflexivity.
Qed.
Lemma nth_all n q s : (s < n)%nat -> match nth s (map (fun s => Some (q s)) (seq 0 n)) None with Some v => v | None => fun _ => 0 end = (q s : vec).
Proof using.
  clear HL. intros Hs. rewrite nth_indep with (d := None) (d' := (fun s => Some (q s)) 0%nat) by (rewrite map_length, seq_length; lia). rewrite (map_nth (fun s => Some (q s))). rewrite seq_nth by lia. reflexivity.
Qed.

Theorem predictor_rows q q' t : (t < N)%nat -> alike (N ^ 2) q' (lifted N q) -> alike (N ^ 2) (predicted o PHI' 2 q' t) (lifted N (predicted o PHI 1 q t)).
Proof using HV HL HB Hsolve Hsolve' Hvalid Hd.
  intros Ht Hq. pose proof (N_pos o nodes bs w HL HB) as N1. unfold predicted, Phi, predictor_cell. rewrite !view_all. cbn [option_map bind].
  replace (N ^ (1 + 1))%nat with (N * N)%nat by (cbn; lia). replace (N ^ (2 + 1))%nat with (N * N * N)%nat by (cbn; lia).
  set (v := fun s => match nth s (map (fun s => Some (q s)) (seq 0 (N ^ 1))) None with Some v => v | None => fun _ => 0 end).
  set (v' := fun s => match nth s (map (fun s => Some (q' s)) (seq 0 (N ^ 2))) None with Some v => v | None => fun _ => 0 end).
  assert (Vv : forall i j, (i < N)%nat -> (j < N)%nat -> v' (i * N + j)%nat = v i).
  { intros i j Hi Hj. assert (L : (i * N + j < N ^ 2)%nat) by (cbn; rewrite Nat.mul_1_r; apply pack_lt; assumption). unfold v, v'. rewrite nth_all by exact L. rewrite nth_all by (cbn; lia). rewrite Hq by exact L. unfold lifted. destruct (divmod N i j Hj) as [-> _]. reflexivity. }
  match goal with |- context [picard _ _ _ _ _ _ ?n1 (Some (standard_initial_guess _ _ v))] => match goal with |- context [picard _ _ _ _ _ _ ?n2 (Some (standard_initial_guess _ _ v'))] =>
    pose proof (picard_rows n1 n2 (initial_condition1 o w E v) (initial_condition2 o w E v')) as P end end.
  assert (HW : weighted_rows (initial_condition1 o w E v) (initial_condition2 o w E v')).
  { intros r i j k Hr Hi Hj. unfold initial_condition1, initial_condition2. cbv zeta. destruct (divmod3 o N1 r i j Hi Hj) as (-> & -> & ->). destruct (divmod N r i Hi) as [-> ->]. rewrite Vv by assumption. ring. }
  specialize (P HW DG_IT (standard_initial_guess o 1 v) (standard_initial_guess o 2 v')).
  assert (H0 : same_rows (standard_initial_guess o 1 v) (standard_initial_guess o 2 v')).
  { intros r i j Hr Hi Hj. unfold standard_initial_guess. replace (N ^ 1)%nat with N by (cbn; lia). destruct (divmod N r i Hi) as [_ ->].
    replace (((r * N + i) * N + j) mod N ^ 2)%nat with (i * N + j)%nat; [apply Vv; assumption|].
    replace ((r * N + i) * N + j)%nat with (i * N + j + r * N ^ 2)%nat by (cbn; lia). rewrite Nat.mod_add by (cbn; nia). symmetry. apply Nat.mod_small. cbn. rewrite Nat.mul_1_r. apply pack_lt; assumption. }
  specialize (P H0). unfold initial_condition, DgModel.rhs.
  destruct (picard _ _ _ _ _ _ _ (Some (standard_initial_guess o 1 v))) as [[[p|]|]| | |], (picard _ _ _ _ _ _ _ (Some (standard_initial_guess o 2 v'))) as [[[p'|]|]| | |]; try contradiction; cbn [bind option_map time_blocks].
  - intros s Hs. unfold lifted. replace (N ^ 1)%nat with N by (cbn; lia).
    assert (Hi : (s / N < N)%nat) by (apply Nat.div_lt_upper_bound; cbn in Hs; lia). pose proof (Nat.mod_upper_bound s N ltac:(lia)) as Hj.
    rewrite <- (P t (s / N)%nat (s mod N)%nat Ht Hi Hj). f_equal. rewrite Nat.mul_add_distr_r, (Nat.mul_comm (s / N) N), <- Nat.add_assoc, <- Nat.div_mod by lia. cbn. lia.
  - intros s Hs. reflexivity.
Qed.
End Predictor.
