(** Proofs for RefSpec.v: the serial steps are the steps of RefSpec.v. *)
From Coq Require Import Reals Lia Lra ZArith FunctionalExtensionality.
From Verif Require Import Base Options Sum EqModel EqSpec EqProof FvModel FvBody FvSpec FvProof FvProof2 FvProps PolyModel WenoModel WenoSpec WenoProof WenoProof2 WenoProof3 WenoProof4 WenoProps
  DgModel DgSpec DgProof DgProof2 DgProof3 DgProps StepperModel StepperProof GridModel GridSpec GridProps AderModel AderProof AderProof2 AderProof3 AderProps AderProof4 Ader2Props Ader3Props
  HomogModel SplitProof SplitProps Split2Props Split3Props UtilsModel RefSpec RefProof.
From Verif Require StepperProps.
Import List ListNotations.
Open Scope nat_scope.

(** masks *)
Lemma spread1_near nx m i : i < nx -> (spread1 nx m (Z.of_nat i) = true <-> near1 nx m (Z.of_nat i)).
Proof.
  intros Hi. unfold spread1, near1. replace (Z.to_nat (Z.max 0 (Z.min (Z.of_nat i) (Z.of_nat nx - 1)))) with i by lia. rewrite existsb_exists. split.
  - intros (k & Hk & E). apply in_seq in Hk. rewrite !Bool.andb_true_iff, !Nat.leb_le in E. exists k. split; [lia|]. split; [apply E|]. lia.
  - intros (k & Hk & Mk & E). exists k. split; [apply in_seq; lia|]. rewrite !Bool.andb_true_iff, !Nat.leb_le. split; [split; [exact Mk|]|]; lia.
Qed.
Lemma spread1_clamp nx m a b : Z.max 0 (Z.min a (Z.of_nat nx - 1)) = Z.max 0 (Z.min b (Z.of_nat nx - 1)) -> spread1 nx m a = spread1 nx m b.
Proof. intros E. unfold spread1. rewrite E. reflexivity. Qed.
Lemma mask1_is nx (mask maskb : buf bool) m : 0 < nx -> blen mask = nx -> (forall i, i < nx -> bdat mask i = Some (m i)) -> blen maskb = nx + 2 ->
  exists mb, extend_mask mask maskb [nx] = Ok mb /\ blen mb = nx + 2 /\ forall i, i < nx + 2 -> rd mb i = Ok (spread1 nx m (Z.of_nat i - 1)).
Proof.
  intros H L D Lb. destruct (extend_mask_1d nx mask maskb m H L D Lb) as (mb & E & Lm & v & V & I & G0 & G1). exists mb. split; [exact E|]. split; [exact Lm|].
  assert (A : forall i, i < nx -> v (i + 1) = spread1 nx m (Z.of_nat i)).
  { intros i Hi. apply Bool.eq_true_iff_eq. rewrite I, spread1_near by exact Hi. tauto. }
  intros i Hi. apply rd_ok; [lia|]. rewrite V by exact Hi. f_equal. destruct (Nat.eq_dec i 0) as [->|N0].
  - rewrite G0. change 1 with (0 + 1). rewrite (A 0) by lia. apply spread1_clamp. lia.
  - destruct (Nat.eq_dec i (nx + 1)) as [->|N1]; [rewrite G1; pose proof (A (nx - 1) ltac:(lia)) as X; replace (nx - 1 + 1) with nx in X by lia; rewrite X; apply spread1_clamp; lia|].
    replace i with (i - 1 + 1) at 1 by lia. rewrite A by lia. f_equal. lia.
Qed.
Lemma spread2_near nx ny m a b : spread2 nx ny m a b = true <-> near2 nx ny m a b.
Proof.
  unfold spread2, near2. rewrite existsb_exists. split.
  - intros (k & Hk & E). apply in_seq in Hk. apply existsb_exists in E. destruct E as (l & Hl & E). apply in_seq in Hl. rewrite Bool.andb_true_iff, Z.leb_le in E. exists k, l. repeat split; try lia; apply E.
  - intros (k & l & Hk & Hl & Mk & E). exists k. split; [apply in_seq; lia|]. apply existsb_exists. exists l. split; [apply in_seq; lia|]. rewrite Bool.andb_true_iff, Z.leb_le. auto.
Qed.
Lemma mask2_is nx ny (mask maskb : buf bool) m : 0 < nx -> 0 < ny -> blen mask = nx * ny -> (forall i j, i < nx -> j < ny -> bdat mask (i * ny + j) = Some (m i j)) -> blen maskb = (nx + 2) * (ny + 2) ->
  exists mb, extend_mask mask maskb [nx; ny] = Ok mb /\ blen mb = (nx + 2) * (ny + 2) /\ forall i j, i < nx + 2 -> j < ny + 2 -> rd mb (i * (ny + 2) + j) = Ok (spread2 nx ny m (Z.of_nat i - 1) (Z.of_nat j - 1)).
Proof.
  intros Hx Hy L D Lb. destruct (extend_mask_2d nx ny mask maskb m Hx Hy L D Lb) as (mb & E & Lm & v & V & I). exists mb. split; [exact E|]. split; [exact Lm|].
  intros i j Hi Hj. apply rd_ok; [rewrite Lm; apply pack_bound; assumption|]. rewrite V by assumption. f_equal. apply Bool.eq_true_iff_eq. rewrite I, spread2_near by assumption. tauto.
Qed.

Section Serial.
Variable o : options.
Variable ph : phys.
Variables NODES WGHTS : nat -> R.
Variables ENDVALS DERVALS : nat -> nat -> R.
Variables (FLUX : nat) (dt : R) (dX : nat -> R).
Variables (nodes : list R) (bs : list poly).
Variable valid : nodal -> bool.
Variables (SIG : nat -> nat -> R) (LAMS LAMC EPS : R) (inv : stencil -> (nat -> R) -> nat -> R).
Variable prim : option ((num -> num) * (num -> num)).
Variable ode : num -> num.
Variable Phi : nat -> list num -> res (option (nat -> option nodal)).
Variable HALF : bool.
Variable wallf : nat -> nat -> num -> num.
Variable bt : nat -> nat.
Notation split := (split_step o ph DERVALS dt dX valid NODES WGHTS ENDVALS FLUX SIG LAMS LAMC EPS inv prim ode HALF).
Notation ader := (ader_with o ph NODES WGHTS ENDVALS DERVALS FLUX dt dX SIG LAMS LAMC EPS inv prim Phi).
Notation new1 SPLIT := (new1 o NODES WGHTS ENDVALS DERVALS SIG LAMS LAMC EPS inv wallf ph prim Phi ode SPLIT HALF FLUX bt dt).
Notation new2 SPLIT := (new2 o NODES WGHTS ENDVALS DERVALS SIG LAMS LAMC EPS inv wallf ph prim Phi ode SPLIT HALF FLUX bt dt).

Hypothesis HR : runs o FLUX dX.
Hypothesis HN : length nodes = N o.
Hypothesis HW : weno_setup nodes bs inv SIG LAMS LAMC EPS.
Hypothesis HP : total_prim prim.

Lemma extend1_number t0 t1 d n x f : (forall y, exists v : vec, f y = Some v) -> (1 < t0 -> total_cell (wallf t0 d)) -> (1 < t1 -> total_cell (wallf t1 d)) ->
  extend1 num wallf t0 t1 d n f x = Some (val (extend1 num wallf t0 t1 d n f x)).
Proof using HN. intros F H0 H1. destruct (extend1_finite o nodes wallf HN t0 t1 d n x f F H0 H1) as [v ->]. reflexivity. Qed.
Lemma boundary1 nx u ub0 x : N o <= nx -> total_walls wallf bt 1 -> holds nx u x -> blen ub0 = extended_dimensions [nx] (N o) ->
  exists ub, boundaries num (N o) wallf u ub0 [nx] bt = Ok ub /\ blen ub = nx + 2 * N o /\ forall i, i < nx + 2 * N o -> bdat ub i = Some (Some (extended1 wallf bt nx x (Z.of_nat i - Z.of_nat (N o)))).
Proof using HN HW.
  intros Nn HK [Lu Du] Lb. pose proof (NN o nodes bs SIG LAMS LAMC EPS inv HN HW) as N1.
  destruct (boundaries_1d_correct num (N o) wallf u ub0 nx bt (fun i => Some (x i)) Nn ltac:(lia) ltac:(intros k Hk; apply HK; lia) Lu Du Lb) as [ub [Eb [Lub Wub]]].
  exists ub. split; [exact Eb|]. split; [exact Lub|]. intros i Hi. rewrite Wub by exact Hi. f_equal. apply extend1_number; [eauto|apply (HK 0); lia|apply (HK 1); lia].
Qed.
Lemma boundary2 nx ny u ub0 x : N o <= nx -> N o <= ny -> total_walls wallf bt 2 -> blen u = nx * ny -> (forall a b, a < nx -> b < ny -> bdat u (a * ny + b) = Some (Some (x a b))) -> blen ub0 = extended_dimensions [nx; ny] (N o) ->
  exists ub, boundaries num (N o) wallf u ub0 [nx; ny] bt = Ok ub /\ blen ub = (nx + 2 * N o) * (ny + 2 * N o) /\ forall i j, i < nx + 2 * N o -> j < ny + 2 * N o ->
    bdat ub (i * (ny + 2 * N o) + j) = Some (Some (extended2 wallf bt nx ny x (Z.of_nat i - Z.of_nat (N o)) (Z.of_nat j - Z.of_nat (N o)))).
Proof using HN HW.
  intros Nn Ny HK Lu Du Lb. pose proof (NN o nodes bs SIG LAMS LAMC EPS inv HN HW) as N1.
  destruct (boundaries_2d_correct num (N o) wallf u ub0 nx ny bt (fun a b => Some (x a b)) Nn ltac:(lia) Ny ltac:(lia) ltac:(intros k Hk; apply HK; lia) Lu Du Lb) as [ub [Eb [Lub Wub]]].
  exists ub. split; [exact Eb|]. split; [exact Lub|]. intros i j Hi Hj. rewrite Wub by assumption. f_equal. unfold extended2, extend2.
  apply extend1_number; [|apply (HK 2); lia|apply (HK 3); lia]. intros y. apply (extend1_finite o nodes wallf HN); [eauto|apply (HK 0); lia|apply (HK 1); lia].
Qed.

Notation met1 SPLIT := (met1 o NODES WGHTS ENDVALS DERVALS SIG LAMS LAMC EPS inv wallf ph prim Phi ode SPLIT HALF FLUX bt dt valid).
Notation met2 SPLIT := (met2 o NODES WGHTS ENDVALS DERVALS SIG LAMS LAMC EPS inv wallf ph prim Phi ode SPLIT HALF FLUX bt dt valid).
Lemma at_ok f q : (exists v, f (Some q) = Some v) -> f (Some q) = Some (at_numbers f q).
Proof using. intros [v E]. unfold at_numbers. rewrite E. reflexivity. Qed.

(** *** split *)
Section Split.
Lemma relax_is n u x : (forall c, c < n -> exists v, ode (Some (x c)) = Some v) -> holds n u x -> exists u', fold_res do_update (relax num ode n) u = Ok u' /\ holds n u' (fun c => at_numbers ode (x c)).
Proof using.
  intros HO [L H]. destruct (relax_ok num ode n u (fun a => Some (x a)) L H) as [u' [F [L' V]]]. exists u'. split; [exact F|]. split; [exact L'|]. intros c Hc. rewrite V by exact Hc. f_equal. apply at_ok, HO, Hc.
Qed.
Theorem split_is_1d nx u ub mask x m : N o <= nx -> met1 true nx (dX 0) x m -> holds nx u x ->
  blen ub = nx + 2 * N o -> (forall i, i < nx + 2 * N o -> bdat ub i = Some (Some (extended1 wallf bt nx x (Z.of_nat i - Z.of_nat (N o))))) ->
  blen mask = nx + 2 -> (forall i, i < nx + 2 -> rd mask i = Ok (spread1 nx m (Z.of_nat i - 1))) ->
  exists u', split u ub mask [nx] = Ok u' /\ holds nx u' (new1 true nx (dX 0) x m).
Proof using HR HN HW HP.
  intros Nn (HO2 & HO1 & HO3 & HVal) Hu Lub Wub Lm Hm. pose proof HR as [HV [HF [D0 D1]]]. pose proof (NN o nodes bs SIG LAMS LAMC EPS inv HN HW) as N1. pose proof Hu as [Lu Du].
  set (E := fun z => at_numbers ode (extended1 wallf bt nx x z)).
  set (mk := fun i => spread1 nx m (Z.of_nat i - 1)).
  set (B := fun i => block1 (N o) SIG LAMS LAMC EPS inv prim E (Z.of_nat i - 1)).
  destruct (weno_blocks_1d o nodes bs SIG LAMS LAMC EPS inv prim HN HW HP nx (bmap ode ub) (fun a => E (Z.of_nat a - Z.of_nat (N o))%Z)) as [wh [Ewh Vwh]].
  { exact Lub. }
  { intros a Ha. cbn [bmap bdat]. rewrite Wub by exact Ha. cbn [option_map]. f_equal. apply at_ok, HO2. lia. }
  destruct (midst_is o ph DERVALS FLUX dt dX valid HALF HR N1 1 (nx + 2) wh mask mk B) as (rec & q & Er & Lr & Vr & Aq); [left; reflexivity| |exact Lm|exact Hm| |].
  { rewrite Nat.pow_1_r. intros i s Hi Hs. rewrite Vwh by assumption. do 2 f_equal. unfold B, block1. f_equal. extensionality v. f_equal. extensionality k. do 2 f_equal. lia. }
  { intros HH i r Hi Mi A. apply (HVal HH (Z.of_nat i - 1)%Z r); [lia|exact Mi|]. rewrite Nat.pow_1_r in A. exact A. }
  destruct (relax_is nx u x HO1 Hu) as [u4 [E4 H4]]. set (x4 := fun c => at_numbers ode (x c)) in *.
  assert (H1 : holds1 o false nx (cells nx x4) (strip rec) mask x4 (fun i _ => q i) mk).
  { split; [reflexivity|]. split; [intros c Hc; apply cells_ok, Hc|]. split.
    - intros i t Hi Ht. cbn [nt_of] in *. assert (t = 0) as -> by lia. rewrite Nat.mul_1_r, Nat.add_0_r. apply rd_ok; cbn [strip blen bdat]; [lia|]. rewrite Vr by exact Hi. reflexivity.
    - exact Hm. }
  destruct (fv_launcher_1d o ph NODES WGHTS ENDVALS DERVALS false false FLUX dt dX nx (cells nx x4) (strip rec) mask _ _ _ HR H1) as [u2 [x2 [E2 [L2 [V2 F2]]]]].
  destruct (fv_is_split o ph NODES WGHTS ENDVALS DERVALS FLUX dt dX HF valid SIG LAMS LAMC EPS inv prim ode HALF
     (cells nx x4) u4 ub mask [nx] u2 wh rec q u (or_introl eq_refl)) as [w5 [U5 F5]].
  - cbn [length]. rewrite Nat.pow_1_r. replace (extended_dimensions [nx] 1) with (nx + 2) by (cbn; lia). exact Ewh.
  - cbn [length]. replace (extended_dimensions [nx] 1) with (nx + 2) by (cbn; lia). exact Er.
  - intros a Ha. apply Vr. lia.
  - rewrite Lu. exact E4.
  - apply cells_u, H4.
  - exact E2.
  - assert (H5 : holds nx w5 x2).
    { destruct U5 as [RL RV]. split; [congruence|]. intros c Hc. destruct (RV c (x2 c) (V2 c Hc)) as [y [Ey ->]]. exact Ey. }
    assert (RW : forall c, c < nx -> x2 c = raw1 o NODES WGHTS ENDVALS DERVALS SIG LAMS LAMC EPS inv wallf ph prim Phi ode true HALF FLUX bt dt nx (dX 0) x m c).
    { intros c Hc. unfold RefSpec.raw1. extensionality k. rewrite F2 by exact Hc.
      unfold time_nodes. cbn [negb]. apply fv1_ext; [exact N1| |reflexivity|reflexivity].
      intros i t Hi Ht Mi s Hs. pose proof (Aq i ltac:(lia)) as A. rewrite Nat.pow_1_r in A. rewrite A by exact Hs. reflexivity. }
    destruct (relax_is nx w5 x2) as [w6 [E6 [L6 H6]]]; [intros c Hc; rewrite RW by exact Hc; apply HO3, Hc|exact H5|]. exists w6. split; [apply F5; rewrite Lu; exact E6|]. split; [exact L6|].
    intros c Hc. rewrite H6 by exact Hc. rewrite RW by exact Hc. reflexivity.
Qed.
Theorem split_is_2d nx ny u ub mask y m : NO_CORNERS o = false -> N o <= nx -> N o <= ny -> holds (nx * ny) u y -> let x a b := y (a * ny + b) in met2 true nx ny (dX 0) (dX 1) x m ->
  blen ub = (nx + 2 * N o) * (ny + 2 * N o) -> (forall i j, i < nx + 2 * N o -> j < ny + 2 * N o -> bdat ub (i * (ny + 2 * N o) + j) = Some (Some (extended2 wallf bt nx ny x (Z.of_nat i - Z.of_nat (N o)) (Z.of_nat j - Z.of_nat (N o))))) ->
  blen mask = (nx + 2) * (ny + 2) -> (forall i j, i < nx + 2 -> j < ny + 2 -> rd mask (i * (ny + 2) + j) = Ok (spread2 nx ny m (Z.of_nat i - 1) (Z.of_nat j - 1))) ->
  exists u', split u ub mask [nx; ny] = Ok u' /\ holds (nx * ny) u' (fun c => new2 true nx ny (dX 0) (dX 1) x m (c / ny) (c mod ny)).
Proof using HR HN HW HP.
  intros HC Nn Ny Hu x (HO2 & HO1 & HO3 & HVal) Lub Wub Lm Hm. pose proof HR as [HV [HF [D0 D1]]]. pose proof (NN o nodes bs SIG LAMS LAMC EPS inv HN HW) as N1. pose proof Hu as [Lu Du].
  set (E := fun a b => at_numbers ode (extended2 wallf bt nx ny x a b)). assert (Y2 : ny + 2 <> 0) by lia.
  set (mk := fun c => spread2 nx ny m (Z.of_nat (c / (ny + 2)) - 1) (Z.of_nat (c mod (ny + 2)) - 1)).
  set (B := fun c => block2 (N o) SIG LAMS LAMC EPS inv prim E (Z.of_nat (c / (ny + 2)) - 1) (Z.of_nat (c mod (ny + 2)) - 1)).
  destruct (weno_blocks_2d o nodes bs SIG LAMS LAMC EPS inv prim HN HW HP nx ny (bmap ode ub) (fun a b => E (Z.of_nat a - Z.of_nat (N o)) (Z.of_nat b - Z.of_nat (N o)))%Z HC) as [wh [Ewh Vwh]].
  { exact Lub. }
  { intros a b Ha Hb. cbn [bmap bdat]. rewrite Wub by assumption. cbn [option_map]. f_equal. apply at_ok, HO2; lia. }
  assert (SPL : forall c, c < (nx + 2) * (ny + 2) -> c / (ny + 2) < nx + 2 /\ c mod (ny + 2) < ny + 2 /\ c = c / (ny + 2) * (ny + 2) + c mod (ny + 2)).
  { intros c Hc. split; [apply Nat.div_lt_upper_bound; lia|]. split; [apply Nat.mod_upper_bound, Y2|]. rewrite (Nat.div_mod_eq c (ny + 2)) at 1. lia. }
  assert (PK : forall i j, j < ny + 2 -> (i * (ny + 2) + j) / (ny + 2) = i /\ (i * (ny + 2) + j) mod (ny + 2) = j) by (intros i j Hj; destruct (divmod (ny + 2) i j Hj) as [-> ->]; auto).
  destruct (midst_is o ph DERVALS FLUX dt dX valid HALF HR N1 2 ((nx + 2) * (ny + 2)) wh mask mk B) as (rec & q & Er & Lr & Vr & Aq); [right; reflexivity| |exact Lm| | |].
  { intros c s Hc Hs. destruct (SPL c Hc) as (Ha & Hb & Ec). rewrite Ec at 1. rewrite Vwh by assumption. do 2 f_equal. unfold B, block2. f_equal. extensionality v. f_equal. extensionality l. f_equal. extensionality k. do 2 f_equal; lia. }
  { intros c Hc. destruct (SPL c Hc) as (Ha & Hb & Ec). rewrite Ec at 1. rewrite Hm by assumption. reflexivity. }
  { intros HH c r Hc Mi A. destruct (SPL c Hc) as (Ha & Hb & _). apply (HVal HH (Z.of_nat (c / (ny + 2)) - 1)%Z (Z.of_nat (c mod (ny + 2)) - 1)%Z r); [lia|lia|exact Mi|exact A]. }
  assert (CC : forall c, c < nx * ny -> c / ny < nx /\ c mod ny < ny /\ c = c / ny * ny + c mod ny).
  { intros c Hc. assert (Y0 : ny <> 0) by lia. split; [apply Nat.div_lt_upper_bound; lia|]. split; [apply Nat.mod_upper_bound, Y0|]. rewrite Nat.mul_comm. apply Nat.div_mod, Y0. }
  destruct (relax_is (nx * ny) u y) as [u4 [E4 H4]]; [intros c Hc; destruct (CC c Hc) as (Ha & Hb & ->); apply HO1; assumption|exact Hu|].
  set (x4 := fun c => at_numbers ode (y c)) in *.
  assert (DX : extended_dimensions [nx; ny] 1 = (nx + 2) * (ny + 2)) by (unfold extended_dimensions; cbn; lia).
  assert (H1 : holds2 o false nx ny (cells (nx * ny) x4) (strip rec) mask (fun a b => x4 (a * ny + b)) (fun i j _ => q (i * (ny + 2) + j)) (fun i j => mk (i * (ny + 2) + j))).
  { split; [reflexivity|]. split; [intros a b Ha Hb; apply cells_ok, pack_bound; assumption|]. split.
    - intros i j t Hi Hj Ht. cbn [nt_of] in *. assert (t = 0) as -> by lia. rewrite Nat.mul_1_r, Nat.add_0_r. assert (Bd : i * (ny + 2) + j < (nx + 2) * (ny + 2)) by (apply pack_bound; assumption).
      apply rd_ok; cbn [strip blen bdat]; [lia|]. rewrite Vr by exact Bd. reflexivity.
    - intros i j Hi Hj. unfold mk. destruct (PK i j Hj) as [-> ->]. apply Hm; assumption. }
  destruct (fv_launcher_2d o ph NODES WGHTS ENDVALS DERVALS false false FLUX dt dX nx ny (cells (nx * ny) x4) (strip rec) mask _ _ _ HR H1) as [u2 [x2 [E2 [L2 [V2 F2]]]]].
  destruct (fv_is_split o ph NODES WGHTS ENDVALS DERVALS FLUX dt dX HF valid SIG LAMS LAMC EPS inv prim ode HALF
     (cells (nx * ny) x4) u4 ub mask [nx; ny] u2 wh rec q u (or_intror eq_refl)) as [w5 [U5 F5]].
  - cbn [length]. rewrite DX. exact Ewh.
  - cbn [length]. rewrite DX. exact Er.
  - intros a Ha. apply Vr. lia.
  - rewrite Lu. exact E4.
  - apply cells_u, H4.
  - exact E2.
  - assert (H5 : holds (nx * ny) w5 (fun c => x2 (c / ny) (c mod ny))).
    { destruct U5 as [RL RV]. split; [congruence|]. intros c Hc. destruct (CC c Hc) as (Ha & Hb & _).
      destruct (RV c (x2 (c / ny) (c mod ny))) as [z [Ez ->]]; [|exact Ez]. rewrite (Nat.div_mod_eq c ny) at 1. rewrite (Nat.mul_comm ny). apply V2; assumption. }
    assert (RW : forall a b, a < nx -> b < ny -> x2 a b = raw2 o NODES WGHTS ENDVALS DERVALS SIG LAMS LAMC EPS inv wallf ph prim Phi ode true HALF FLUX bt dt nx ny (dX 0) (dX 1) x m a b).
    { intros a b Ha Hb. unfold RefSpec.raw2. extensionality k. rewrite F2 by assumption.
      unfold time_nodes. cbn [negb]. apply fv2_ext; [exact N1| | |reflexivity].
      + intros i j t Hi Hj _ Ht Mi s Hs. rewrite Aq by (try exact Hs; apply pack_bound; lia). unfold mk, B. destruct (PK i j ltac:(lia)) as [-> ->]. reflexivity.
      + intros i j Hi Hj _. unfold mk. destruct (PK i j ltac:(lia)) as [-> ->]. reflexivity. }
    destruct (relax_is (nx * ny) w5 (fun c => x2 (c / ny) (c mod ny))) as [w6 [E6 [L6 H6]]]; [|exact H5|].
    { intros c Hc. destruct (CC c Hc) as (Ha & Hb & _). cbv beta. rewrite RW by assumption. apply HO3; assumption. }
    exists w6. split; [apply F5; rewrite Lu; exact E6|]. split; [exact L6|].
    intros c Hc. rewrite H6 by exact Hc. destruct (CC c Hc) as (Ha & Hb & _). rewrite RW by assumption. reflexivity.
Qed.
End Split.

(** *** ADER *)
Theorem ader_is_1d nx u ub mask x m : N o <= nx -> met1 false nx (dX 0) x m -> holds nx u x ->
  blen ub = nx + 2 * N o -> (forall i, i < nx + 2 * N o -> bdat ub i = Some (Some (extended1 wallf bt nx x (Z.of_nat i - Z.of_nat (N o))))) ->
  blen mask = nx + 2 -> (forall i, i < nx + 2 -> rd mask i = Ok (spread1 nx m (Z.of_nat i - 1))) ->
  exists u', ader u ub mask [nx] = Ok u' /\ holds nx u' (new1 false nx (dX 0) x m).
Proof using HR HN HW HP.
  intros Nn HS Hu Lub Wub Lm Hm. pose proof HR as [HV [HF [D0 D1]]]. pose proof (NN o nodes bs SIG LAMS LAMC EPS inv HN HW) as N1. pose proof Hu as [Lu Du].
  set (E := extended1 wallf bt nx x).
  set (mk := fun i => spread1 nx m (Z.of_nat i - 1)).
  set (B := fun i => block1 (N o) SIG LAMS LAMC EPS inv prim E (Z.of_nat i - 1)).
  destruct (weno_blocks_1d o nodes bs SIG LAMS LAMC EPS inv prim HN HW HP nx ub (fun a => E (Z.of_nat a - Z.of_nat (N o))%Z) Lub Wub) as [wh [Ewh Vwh]].
  destruct (pred_is o N1 Phi 1 (nx + 2) wh mask mk B) as (qh & q & Eqh & Lq & Sq & Vq & Pq); [| |exact Lm|exact Hm|].
  { intros i Hi Mi. apply (HS (Z.of_nat i - 1)%Z); [lia|exact Mi]. }
  { rewrite Nat.pow_1_r. intros i s Hi Hs. rewrite Vwh by assumption. do 2 f_equal. unfold B, block1. f_equal. extensionality v. f_equal. extensionality k. do 2 f_equal. lia. }
  assert (H1 : holds1 o true nx (cells nx x) (strip qh) mask x (fun i t => q (i * N o + t)) mk).
  { split; [reflexivity|]. split; [intros c Hc; apply cells_ok, Hc|]. split.
    - intros i t Hi Ht. cbn [nt_of] in *. assert (Bd : i * N o + t < (nx + 2) * N o) by (apply pack_bound; assumption).
      apply rd_ok; cbn [strip blen bdat]; [lia|]. rewrite Sq. reflexivity.
    - exact Hm. }
  destruct (fv_launcher_1d o ph NODES WGHTS ENDVALS DERVALS true true FLUX dt dX nx (cells nx x) (strip qh) mask _ _ _ HR H1) as [u2 [x2 [E2 [L2 [V2 F2]]]]].
  destruct (fv_is_ader o ph NODES WGHTS ENDVALS DERVALS FLUX dt dX HF SIG LAMS LAMC EPS inv prim Phi
     (cells nx x) ub mask [nx] u2 wh qh q u (or_introl eq_refl)) as [u' [Ea Ru']].
  - cbn [length]. rewrite Nat.pow_1_r. replace (extended_dimensions [nx] 1) with (nx + 2) by (cbn; lia). exact Ewh.
  - cbn [length]. replace (extended_dimensions [nx] 1) with (nx + 2) by (cbn; lia). exact Eqh.
  - exact Vq.
  - exact E2.
  - apply cells_u, Hu.
  - exists u'. split; [exact Ea|]. destruct Ru' as [RL RV]. split; [congruence|]. intros c Hc. destruct (RV c (x2 c) (V2 c Hc)) as [z [Ez ->]]. rewrite Ez. do 2 f_equal.
    unfold RefSpec.new1, RefSpec.raw1, relaxed. extensionality k. rewrite F2 by exact Hc. unfold time_nodes. cbn [negb]. apply fv1_ext; [exact N1| |reflexivity|reflexivity].
    intros i t Hi Ht Mi s Hs. rewrite Pq by (try exact Ht; try exact Mi; lia). reflexivity.
Qed.
Theorem ader_is_2d nx ny u ub mask y m : NO_CORNERS o = false -> N o <= nx -> N o <= ny -> holds (nx * ny) u y -> let x a b := y (a * ny + b) in met2 false nx ny (dX 0) (dX 1) x m ->
  blen ub = (nx + 2 * N o) * (ny + 2 * N o) -> (forall i j, i < nx + 2 * N o -> j < ny + 2 * N o -> bdat ub (i * (ny + 2 * N o) + j) = Some (Some (extended2 wallf bt nx ny x (Z.of_nat i - Z.of_nat (N o)) (Z.of_nat j - Z.of_nat (N o))))) ->
  blen mask = (nx + 2) * (ny + 2) -> (forall i j, i < nx + 2 -> j < ny + 2 -> rd mask (i * (ny + 2) + j) = Ok (spread2 nx ny m (Z.of_nat i - 1) (Z.of_nat j - 1))) ->
  exists u', ader u ub mask [nx; ny] = Ok u' /\ holds (nx * ny) u' (fun c => new2 false nx ny (dX 0) (dX 1) x m (c / ny) (c mod ny)).
Proof using HR HN HW HP.
  intros HC Nn Ny Hu x HS Lub Wub Lm Hm. pose proof HR as [HV [HF [D0 D1]]]. pose proof (NN o nodes bs SIG LAMS LAMC EPS inv HN HW) as N1. pose proof Hu as [Lu Du].
  set (E := extended2 wallf bt nx ny x). assert (Y2 : ny + 2 <> 0) by lia.
  set (mk := fun c => spread2 nx ny m (Z.of_nat (c / (ny + 2)) - 1) (Z.of_nat (c mod (ny + 2)) - 1)).
  set (B := fun c => block2 (N o) SIG LAMS LAMC EPS inv prim E (Z.of_nat (c / (ny + 2)) - 1) (Z.of_nat (c mod (ny + 2)) - 1)).
  destruct (weno_blocks_2d o nodes bs SIG LAMS LAMC EPS inv prim HN HW HP nx ny ub (fun a b => E (Z.of_nat a - Z.of_nat (N o)) (Z.of_nat b - Z.of_nat (N o)))%Z HC Lub Wub) as [wh [Ewh Vwh]].
  assert (SPL : forall c, c < (nx + 2) * (ny + 2) -> c / (ny + 2) < nx + 2 /\ c mod (ny + 2) < ny + 2 /\ c = c / (ny + 2) * (ny + 2) + c mod (ny + 2)).
  { intros c Hc. split; [apply Nat.div_lt_upper_bound; lia|]. split; [apply Nat.mod_upper_bound, Y2|]. rewrite (Nat.div_mod_eq c (ny + 2)) at 1. lia. }
  assert (PK : forall i j, j < ny + 2 -> (i * (ny + 2) + j) / (ny + 2) = i /\ (i * (ny + 2) + j) mod (ny + 2) = j) by (intros i j Hj; destruct (divmod (ny + 2) i j Hj) as [-> ->]; auto).
  destruct (pred_is o N1 Phi 2 ((nx + 2) * (ny + 2)) wh mask mk B) as (qh & q & Eqh & Lq & Sq & Vq & Pq); [| |exact Lm| |].
  { intros c Hc Mi. destruct (SPL c Hc) as (Ha & Hb & _). apply (HS (Z.of_nat (c / (ny + 2)) - 1)%Z (Z.of_nat (c mod (ny + 2)) - 1)%Z); [lia|lia|exact Mi]. }
  { intros c s Hc Hs. destruct (SPL c Hc) as (Ha & Hb & Ec). rewrite Ec at 1. rewrite Vwh by assumption. do 2 f_equal. unfold B, block2. f_equal. extensionality v. f_equal. extensionality l. f_equal. extensionality k. do 2 f_equal; lia. }
  { intros c Hc. destruct (SPL c Hc) as (Ha & Hb & Ec). rewrite Ec at 1. rewrite Hm by assumption. reflexivity. }
  assert (DX : extended_dimensions [nx; ny] 1 = (nx + 2) * (ny + 2)) by (unfold extended_dimensions; cbn; lia).
  assert (H1 : holds2 o true nx ny (cells (nx * ny) y) (strip qh) mask (fun a b => y (a * ny + b)) (fun i j t => q ((i * (ny + 2) + j) * N o + t)) (fun i j => mk (i * (ny + 2) + j))).
  { split; [reflexivity|]. split; [intros a b Ha Hb; apply cells_ok, pack_bound; assumption|]. split.
    - intros i j t Hi Hj Ht. cbn [nt_of] in *. assert (Bd : (i * (ny + 2) + j) * N o + t < (nx + 2) * (ny + 2) * N o) by (do 2 (apply pack_bound; try assumption)).
      apply rd_ok; cbn [strip blen bdat]; [lia|]. rewrite Sq. reflexivity.
    - intros i j Hi Hj. unfold mk. destruct (PK i j Hj) as [-> ->]. apply Hm; assumption. }
  destruct (fv_launcher_2d o ph NODES WGHTS ENDVALS DERVALS true true FLUX dt dX nx ny (cells (nx * ny) y) (strip qh) mask _ _ _ HR H1) as [u2 [x2 [E2 [L2 [V2 F2]]]]].
  destruct (fv_is_ader o ph NODES WGHTS ENDVALS DERVALS FLUX dt dX HF SIG LAMS LAMC EPS inv prim Phi
     (cells (nx * ny) y) ub mask [nx; ny] u2 wh qh q u (or_intror eq_refl)) as [u' [Ea Ru']].
  - cbn [length]. rewrite DX. exact Ewh.
  - cbn [length]. rewrite DX. exact Eqh.
  - exact Vq.
  - exact E2.
  - apply cells_u, Hu.
  - exists u'. split; [exact Ea|]. destruct Ru' as [RL RV]. split; [congruence|]. intros c Hc. assert (Y0 : ny <> 0) by lia.
    assert (Ha : c / ny < nx) by (apply Nat.div_lt_upper_bound; lia). pose proof (Nat.mod_upper_bound c ny Y0) as Hb.
    destruct (RV c (x2 (c / ny) (c mod ny))) as [z [Ez ->]]; [rewrite (Nat.div_mod_eq c ny) at 1; rewrite (Nat.mul_comm ny); apply V2; assumption|]. rewrite Ez. do 2 f_equal.
    unfold RefSpec.new2, RefSpec.raw2, relaxed. extensionality k. rewrite F2 by assumption. unfold time_nodes. cbn [negb]. apply fv2_ext; [exact N1| | |reflexivity].
    + intros i j t Hi Hj _ Ht Mi s Hs. rewrite Pq; [|apply pack_bound; lia|exact Ht|exact Mi]. unfold B. destruct (PK i j ltac:(lia)) as [-> ->]. reflexivity.
    + intros i j Hi Hj _. unfold mk. destruct (PK i j ltac:(lia)) as [-> ->]. reflexivity.
Qed.
End Serial.
