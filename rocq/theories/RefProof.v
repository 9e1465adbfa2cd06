(** Proofs for RefSpec.v: reconstruction, half step, predictor. *)
From Coq Require Import Reals Lia Lra ZArith FunctionalExtensionality.
From Verif Require Import Base Options Sum EqModel EqSpec EqProof FvModel FvBody FvSpec FvProof FvProof2 FvProps PolyModel WenoModel WenoSpec WenoProof WenoProof2 WenoProof3 WenoProof4 WenoProps
  DgModel DgSpec DgProof DgProof2 DgProof3 DgProps StepperModel StepperProof GridModel GridSpec GridProps AderModel AderProof AderProof2 AderProof3 AderProps AderProof4 Ader2Props Ader3Props
  HomogModel SplitProof SplitProps Split2Props Split3Props UtilsModel RefSpec.
From Verif Require StepperProps.
Import List ListNotations.
Open Scope nat_scope.

Section Rec.
Variable n : nat.
Variables (SIG : nat -> nat -> R) (LAMS LAMC EPS : R) (inv : stencil -> (nat -> R) -> nat -> R).
Hypothesis N1 : 1 <= n.
Notation reconstruct := (reconstruct n SIG LAMS LAMC EPS inv).
Lemma selected_0 nx i : i < nx -> selected n (Z.of_nat nx) (Z.of_nat 0) (Z.of_nat i) = stencils n.
Proof using N1.
  intros H. unfold selected, stencils.
  rewrite (proj2 (Z.leb_le (Z.of_nat 0) (Z.of_nat i))) by lia. rewrite (proj2 (Z.leb_le (Z.of_nat i) (Z.of_nat nx - Z.of_nat 0 - 1))) by lia.
  rewrite (proj2 (Z.leb_le (Z.of_nat 0) (Z.of_nat i + Z.of_nat (FN2 n)))) by lia. rewrite (proj2 (Z.leb_le (Z.of_nat i - Z.of_nat (FN2 n)) (Z.of_nat nx - Z.of_nat 0 - 1))) by lia.
  rewrite Bool.andb_true_r. cbn [app]. destruct (Nat.ltb 2 n); destruct (Nat.even n); reflexivity.
Qed.
Lemma fold_sum {A} (f : A -> R) l : forall a, (fold_left (fun acc s => acc + f s)%R l a = a + fold_right (fun s a => f s + a) 0 l)%R.
Proof using N1. induction l as [|s l IH]; intros a; cbn [fold_left fold_right]; [ring|]. rewrite IH. ring. Qed.
Lemma ocol_is data s v : ocol n SIG LAMS LAMC EPS inv data s v = trust n SIG LAMS LAMC EPS inv (fun k => data k v) s.
Proof using N1.
  unfold ocol, weight, trust, LAM, oscillation, wcol, fit. set (t := (rsum _ _ + EPS)%R). replace (t * t * (t * t) * (t * t * (t * t)))%R with (t ^ 8)%R by ring. reflexivity.
Qed.
Lemma combine_is data i v : WenoModel.combine n SIG LAMS LAMC EPS inv data (stencils n) i v = reconstruct (fun k => data k v) i.
Proof using N1.
  unfold WenoModel.combine, RefSpec.reconstruct, over_stencils. cbv zeta. rewrite !fold_sum, !Rplus_0_l.
  assert (E : forall s, ocol n SIG LAMS LAMC EPS inv data s v = trust n SIG LAMS LAMC EPS inv (fun k => data k v) s) by (intros; apply ocol_is).
  f_equal; [|f_equal]; (f_equal; extensionality s; extensionality a; f_equal; rewrite E; reflexivity).
Qed.
(** a reconstruction only looks at the 2n - 1 cells around *)
Lemma reconstruct_ext w w' i : (forall k, k < 2 * n - 1 -> w k = w' k) -> (forall s c c' j, j < n -> (forall k, k < n -> c k = c' k) -> inv s c j = inv s c' j) -> i < n -> reconstruct w i = reconstruct w' i.
Proof using N1.
  intros H HI Hi. assert (FE : forall s j, j < n -> fit n inv w s j = fit n inv w' s j).
  { intros s j Hj. apply HI; [exact Hj|]. intros k Hk. apply H. pose proof (off_le n N1 s). lia. }
  assert (TE : forall s, trust n SIG LAMS LAMC EPS inv w s = trust n SIG LAMS LAMC EPS inv w' s).
  { intros s. unfold trust. assert (O : oscillation n SIG (fit n inv w s) = oscillation n SIG (fit n inv w' s)).
    - unfold oscillation. apply rsum_ext. intros a Ha. apply rsum_ext. intros b Hb. rewrite !FE by assumption. reflexivity.
    - rewrite O. reflexivity. }
  unfold RefSpec.reconstruct, over_stencils. f_equal; [|f_equal]; (f_equal; extensionality s; extensionality a; rewrite ?FE, TE by exact Hi; reflexivity).
Qed.
Lemma sweep_is u f nx i s : i < nx -> (forall k, k < 2 * n - 1 -> u (i + k) = Some (f (i + k))) ->
  sweep n SIG LAMS LAMC EPS inv u nx 0 i s = Some (fun v => WenoModel.combine n SIG LAMS LAMC EPS inv (fun k => val (blk u (2 * n - 1) i k)) (stencils n) s v).
Proof using N1.
  intros Hi Hu. unfold sweep, coeffs. rewrite selected_0 by exact Hi.
  replace (match stencils n with [] => false | _ :: _ => true end) with true by reflexivity. cbn [andb].
  replace (forallb (fun s0 => forallb (fun k => fin (blk u (2 * n - 1) i (off n s0 + k))) (seq 0 n)) (stencils n)) with true; [reflexivity|].
  symmetry. apply forallb_forall. intros st _. apply forallb_forall. intros k Hk. apply in_seq in Hk. pose proof (off_le n N1 st). rewrite blk_in by lia. rewrite Hu by lia. reflexivity.
Qed.
End Rec.

(** rows read one after the other *)
Lemma gather_is (rdu : nat -> res num) (B : nat -> vec) : forall n i, (forall s, s < n -> rdu (i + s) = Ok (Some (B s))) -> gather rdu n i = Ok (map (fun s => Some (B s)) (seq 0 n)).
Proof.
  intros n. revert B. induction n as [|n IH]; intros B i H; [reflexivity|]. cbn [gather]. rewrite <- (Nat.add_0_r i) at 1. rewrite (H 0) by lia. cbn [bind].
  rewrite (IH (fun s => B (S s)) (S i)) by (intros s Hs; rewrite <- (H (S s)) by lia; f_equal; lia). cbn [bind seq map]. rewrite <- seq_shift, map_map. reflexivity.
Qed.
Lemma view_is (B : nat -> vec) n : exists q, view (map (fun s => Some (B s)) (seq 0 n)) = Some q /\ forall s, s < n -> q s = B s.
Proof.
  unfold view. replace (DgModel.all_finite _) with true.
  - eexists. split; [reflexivity|]. intros s Hs. cbn beta.
    rewrite nth_indep with (d' := Some (B 0)) by (rewrite map_length, seq_length; exact Hs). rewrite map_nth with (f := fun s => Some (B s)), seq_nth by exact Hs. reflexivity.
  - symmetry. apply forallb_forall. intros x Hx. apply in_map_iff in Hx. destruct Hx as [s [<- _]]. reflexivity.
Qed.

Section Blocks.
Variable o : options.
Variables (nodes : list R) (bs : list poly).
Variables (SIG : nat -> nat -> R) (LAMS LAMC EPS : R) (inv : stencil -> (nat -> R) -> nat -> R).
Variable prim : option ((num -> num) * (num -> num)).
Hypothesis HN : length nodes = N o.
Hypothesis HW : weno_setup nodes bs inv SIG LAMS LAMC EPS.
Hypothesis HP : total_prim prim.
Notation reconstruct := (reconstruct (N o) SIG LAMS LAMC EPS inv).
Notation before := (before prim).
Notation after := (after prim).
Lemma NN : 1 <= N o. Proof using HN HW. pose proof HW as [_ [_ [X _]]]. lia. Qed.
Lemma total_at f q : total_cell f -> f (Some q) = Some (at_numbers f q).
Proof using. intros T. destruct (T q) as [v E]. unfold at_numbers. rewrite E. reflexivity. Qed.

(** the solution of the linear system of a stencil depends on its right hand side only *)
Lemma inv_ext s c c' j : j < N o -> (forall k, k < N o -> c k = c' k) -> inv s c j = inv s c' j.
Proof using HN HW.
  intros Hj H. pose proof HW as (U1 & U2 & U3 & U4 & _). apply (WenoProof2.M_cancel nodes bs U1 U2 U3 s); [|rewrite HN; exact Hj].
  intros i Hi. rewrite !U4 by exact Hi. apply H. lia.
Qed.

Lemma weno_blocks_1d nx ub (f : nat -> vec) : blen ub = nx + 2 * N o -> (forall a, a < nx + 2 * N o -> bdat ub a = Some (Some (f a))) ->
  exists wh, weno_launcher (N o) SIG LAMS LAMC EPS inv prim (NO_CORNERS o) (balloc ((nx + 2) * N o)) ub [nx] = Ok wh /\
    forall i s, i < nx + 2 -> s < N o -> rd wh (i * N o + s) = Ok (Some (after (fun v => reconstruct (fun k => before (f (i + k)) v) s))).
Proof using HN HW HP.
  intros Lu U. pose proof NN as N1. unfold weno_launcher. set (ub' := match prim with Some (p, _) => bmap p ub | None => ub end).
  assert (L' : blen ub' = nx + 2 * N o) by (unfold ub'; destruct prim as [[p c]|]; exact Lu).
  assert (U' : forall a, a < nx + 2 * N o -> bdat ub' a = Some (Some (before (f a)))).
  { intros a Ha. unfold ub', RefSpec.before. unfold total_prim in HP. destruct prim as [[p c]|]; [|apply U, Ha]. cbn [bmap bdat]. rewrite U by exact Ha. cbn [option_map]. f_equal. apply total_at, HP. }
  destruct (weno1_ok (N o) SIG LAMS LAMC EPS inv N1 (vrow ub' 0 1 (blen ub')) (fun r => Some (before (f r))) (nx + 2) 0 (balloc ((nx + 2) * N o))) as [wh' [E [L [Vv _]]]].
  - cbn [balloc blen]. lia.
  - intros r Hr. unfold vrow. rewrite (proj2 (Nat.ltb_lt _ _)) by lia. rewrite Nat.mul_1_l. apply rd_ok; [|apply U']; cbn; lia.
  - rewrite E. cbn [bind]. eexists. split; [reflexivity|]. intros i s Hi Hs. cbn [balloc blen] in L.
    assert (B : i * N o + s < (nx + 2) * N o) by (apply pack_lt; assumption).
    assert (Bv : bdat wh' (i * N o + s) = Some (Some (fun v => reconstruct (fun k => before (f (i + k)) v) s))).
    { rewrite Vv by assumption. rewrite (sweep_is (N o) SIG LAMS LAMC EPS inv N1 _ (fun r => before (f r))) by (try assumption; reflexivity).
      do 2 f_equal. extensionality v. rewrite combine_is by exact N1. apply reconstruct_ext; [exact N1| |intros; apply inv_ext; assumption|exact Hs].
      intros k Hk. rewrite blk_in by exact Hk. reflexivity. }
    unfold RefSpec.after. unfold total_prim in HP. destruct prim as [[p c]|]; [|apply rd_ok; [lia|exact Bv]].
    apply rd_ok; cbn [bmap blen bdat]; [lia|]. rewrite Bv. cbn [option_map]. f_equal. apply total_at, HP.
Qed.
Lemma weno_blocks_2d nx ny ub (f : nat -> nat -> vec) : NO_CORNERS o = false -> let W := ny + 2 * N o in blen ub = (nx + 2 * N o) * W ->
  (forall a b, a < nx + 2 * N o -> b < W -> bdat ub (a * W + b) = Some (Some (f a b))) ->
  exists wh, weno_launcher (N o) SIG LAMS LAMC EPS inv prim (NO_CORNERS o) (balloc ((nx + 2) * (ny + 2) * N o ^ 2)) ub [nx; ny] = Ok wh /\
    forall i j s, i < nx + 2 -> j < ny + 2 -> s < N o ^ 2 -> rd wh ((i * (ny + 2) + j) * N o ^ 2 + s) =
      Ok (Some (after (fun v => reconstruct (fun l => reconstruct (fun k => before (f (i + k) (j + l)) v) (s / N o)) (s mod N o)))).
Proof using HN HW HP.
  intros HC W Lu U. pose proof NN as N1. unfold weno_launcher. set (ub' := match prim with Some (p, _) => bmap p ub | None => ub end).
  assert (L' : blen ub' = (nx + 2 * N o) * W) by (unfold ub'; destruct prim as [[p c]|]; exact Lu).
  assert (U' : forall a b, a < nx + 2 * N o -> b < W -> bdat ub' (a * W + b) = Some (Some (before (f a b)))).
  { intros a b Ha Hb. unfold ub', RefSpec.before. unfold total_prim in HP. destruct prim as [[p c]|]; [|apply U; assumption]. cbn [bmap bdat]. rewrite U by assumption. cbn [option_map]. f_equal. apply total_at, HP. }
  assert (W0 : ny + 2 + 2 * (N o - 1) = W) by (unfold W; lia). assert (X0 : nx + 2 + 2 * (N o - 1) = nx + 2 * N o) by lia.
  assert (WP : W <> 0) by (unfold W; lia).
  destruct (weno2_ok (N o) SIG LAMS LAMC EPS inv N1 (NO_CORNERS o) (balloc ((nx + 2) * (ny + 2) * N o ^ 2)) ub' (fun a => Some (before (f (a / W) (a mod W)))) (nx + 2) (ny + 2)) as [wh' [E [L [Vv _]]]].
  - cbn [balloc blen]. rewrite Nat.pow_2_r. lia.
  - rewrite W0, X0, L'. lia.
  - rewrite W0, X0. intros a Ha. rewrite (Nat.div_mod_eq a W) at 1. rewrite (Nat.mul_comm W). apply U'; [apply Nat.div_lt_upper_bound; lia|apply Nat.mod_upper_bound, WP].
  - rewrite E. cbn [bind]. eexists. split; [reflexivity|]. intros i j s Hi Hj Hs. cbn [balloc blen] in L. rewrite Nat.pow_2_r in *.
    assert (A : s / N o < N o) by (apply Nat.div_lt_upper_bound; lia). assert (B : s mod N o < N o) by (apply Nat.mod_upper_bound; lia).
    assert (Ad : (i * (ny + 2) + j) * (N o * N o) + s = ((i * (ny + 2) + j) * N o + s / N o) * N o + s mod N o) by (rewrite (Nat.div_mod_eq s (N o)) at 1; ring).
    assert (Bd : (i * (ny + 2) + j) * (N o * N o) + s < (nx + 2) * (ny + 2) * (N o * N o)) by (apply pack_lt; [apply pack_lt; assumption|exact Hs]).
    assert (Bv : bdat wh' ((i * (ny + 2) + j) * (N o * N o) + s) = Some (Some (fun v => reconstruct (fun l => reconstruct (fun k => before (f (i + k) (j + l)) v) (s / N o)) (s mod N o)))).
    { rewrite Ad, Vv by assumption. f_equal. unfold wh_val. rewrite HC. unfold gapy. cbn [andb].
      assert (UX : forall r, r < W -> ux_val (N o) SIG LAMS LAMC EPS inv false (fun a => Some (before (f (a / W) (a mod W)))) (nx + 2) (ny + 2) i r (s / N o) = Some (fun v => reconstruct (fun k => before (f (i + k) r) v) (s / N o))).
      { intros r Hr. unfold ux_val, gapx. cbn [andb]. rewrite W0.
        assert (DM : forall k, (r + W * k) / W = k /\ (r + W * k) mod W = r) by (intros k; rewrite (Nat.mul_comm W k); split; [rewrite Nat.div_add by exact WP; rewrite Nat.div_small by exact Hr; lia|rewrite Nat.mod_add by exact WP; apply Nat.mod_small, Hr]).
        rewrite (sweep_is (N o) SIG LAMS LAMC EPS inv N1 _ (fun k => before (f k r))).
        - f_equal. extensionality v. rewrite combine_is by exact N1. apply reconstruct_ext; [exact N1| |intros; apply inv_ext; assumption|exact A].
          intros k Hk. rewrite blk_in by exact Hk. cbn [val]. destruct (DM (i + k)) as [-> ->]. reflexivity.
        - exact Hi.
        - intros k Hk. destruct (DM (i + k)) as [-> ->]. reflexivity. }
      rewrite (sweep_is (N o) SIG LAMS LAMC EPS inv N1 _ (fun r v => reconstruct (fun k => before (f (i + k) r) v) (s / N o))).
      - f_equal. extensionality v. rewrite combine_is by exact N1. apply reconstruct_ext; [exact N1| |intros; apply inv_ext; assumption|exact B].
        intros k Hk. rewrite blk_in by exact Hk. rewrite UX by lia. reflexivity.
      - exact Hj.
      - intros k Hk. apply UX. lia. }
    unfold RefSpec.after. unfold total_prim in HP. destruct prim as [[p c]|]; [|apply rd_ok; [lia|exact Bv]].
    apply rd_ok; cbn [bmap blen bdat]; [lia|]. rewrite Bv. cbn [option_map]. f_equal. apply total_at, HP.
Qed.
End Blocks.

Section Mid.
Variable o : options.
Variable ph : phys.
Variables NODES WGHTS : nat -> R.
Variables ENDVALS DERVALS : nat -> nat -> R.
Variables (FLUX : nat) (dt : R) (dX : nat -> R).
Variable valid : nodal -> bool.
Variable HALF : bool.
Hypothesis HR : runs o FLUX dX.
Hypothesis N1 : 1 <= N o.
Notation midf := (mid o ph DERVALS dt dX valid).
Notation half1 := (half1 o DERVALS ph dt (dX 0)).
Notation half2 := (half2 o DERVALS ph dt (dX 0) (dX 1)).
Definition half (ndim : nat) : nodal -> nodal := match ndim with 1 => half1 | _ => half2 end.
(** blocks that agree at their nodes *)
Definition alike (n : nat) (q r : nodal) : Prop := forall s, s < n -> q s = r s.
Lemma derivs1d_ext D q r s k : alike (N o) q r -> derivs1d o D q s k = derivs1d o D r s k.
Proof using. intros H. unfold derivs1d. apply rsum_ext. intros j Hj. rewrite H by exact Hj. reflexivity. Qed.
Lemma derivs2d_ext D q r d s k : s < N o ^ 2 -> alike (N o ^ 2) q r -> derivs2d o D q d s k = derivs2d o D r d s k.
Proof using N1.
  intros Hs H. rewrite Nat.pow_2_r in *. assert (A : s / N o < N o) by (apply Nat.div_lt_upper_bound; lia). assert (B : s mod N o < N o) by (apply Nat.mod_upper_bound; lia).
  unfold derivs2d. destruct d; apply rsum_ext; intros j Hj; rewrite H by (apply pack_bound; assumption); reflexivity.
Qed.
Lemma half_is ndim (B : nodal) l : ndim = 1 \/ ndim = 2 -> l = map (fun s => Some (B s)) (seq 0 (N o ^ ndim)) -> (forall q, alike (N o ^ ndim) q B -> valid q = true) ->
  exists q, midf ndim l = Ok (Some q) /\ alike (N o ^ ndim) q (half ndim B).
Proof using HR N1.
  intros Hn -> HVal. destruct (view_is B (N o ^ ndim)) as [q [E Q]]. unfold mid. rewrite E, (HVal q Q). destruct HR as [HV [_ [X0 X1]]].
  destruct Hn as [-> | ->]; [unfold mid1|unfold mid2; rewrite <- Nat.pow_2_r].
  - rewrite Nat.pow_1_r in *.
    match goal with |- context [rows ?m ?f] => destruct (rows_ok m f (half1 B)) as [r [Er Hr]] end.
    + intros a Ha. cbv beta zeta. rewrite (Bdot_ok o HV) by lia. cbn [bind]. f_equal. extensionality k. unfold RefSpec.half1. rewrite (bdot_spec o HV) by lia.
      rewrite (derivs1d_ext DERVALS (fun s => flux o ph (fun _ => 0%R) (q s) 0) (fun s => flux o ph (fun _ => 0%R) (B s) 0)) by (intros s Hs; rewrite Q by exact Hs; reflexivity).
      replace (derivs1d o DERVALS q a) with (derivs1d o DERVALS B a) by (extensionality j; symmetry; apply derivs1d_ext; exact Q). rewrite (Q a Ha). field. exact X0.
    + rewrite Er. cbn [bind]. eexists. split; [reflexivity|]. exact Hr.
  - match goal with |- context [rows ?m ?f] => destruct (rows_ok m f (half2 B)) as [r [Er Hr]] end.
    + intros a Ha. cbv beta zeta. rewrite !(Bdot_ok o HV) by lia. cbn [bind]. f_equal. extensionality k. unfold RefSpec.half2. rewrite !(bdot_spec o HV) by lia.
      rewrite (derivs2d_ext DERVALS (fun s => flux o ph (fun _ => 0%R) (q s) 0) (fun s => flux o ph (fun _ => 0%R) (B s) 0)) by (try exact Ha; intros s Hs; rewrite Q by exact Hs; reflexivity).
      rewrite (derivs2d_ext DERVALS (fun s => flux o ph (fun _ => 0%R) (q s) 1) (fun s => flux o ph (fun _ => 0%R) (B s) 1)) by (try exact Ha; intros s Hs; rewrite Q by exact Hs; reflexivity).
      replace (derivs2d o DERVALS q 0 a) with (derivs2d o DERVALS B 0 a) by (extensionality j; symmetry; apply derivs2d_ext; [exact Ha|exact Q]).
      replace (derivs2d o DERVALS q 1 a) with (derivs2d o DERVALS B 1 a) by (extensionality j; symmetry; apply derivs2d_ext; [exact Ha|exact Q]). rewrite (Q a Ha). reflexivity.
    + rewrite Er. cbn [bind]. eexists. split; [reflexivity|]. exact Hr.
Qed.
Lemma midst_is ndim m wh mask mk (B : nat -> nodal) : ndim = 1 \/ ndim = 2 -> (forall i s, i < m -> s < N o ^ ndim -> rd wh (i * N o ^ ndim + s) = Ok (Some (B i s))) ->
  blen mask = m -> (forall i, i < m -> rd mask i = Ok (mk i)) -> (HALF = true -> forall i q, i < m -> mk i = true -> alike (N o ^ ndim) q (B i) -> valid q = true) ->
  exists rec q, midstepper (option nodal) view midf HALF ndim (N o ^ ndim) (balloc m) wh mask = Ok rec /\ blen rec = m /\ (forall i, i < m -> bdat rec i = Some (Some (q i))) /\
    forall i, i < m -> alike (N o ^ ndim) (q i) (if (mk i && HALF)%bool then half ndim (B i) else B i).
Proof using HR N1.
  intros Hn Hr Lm Hm HVal.
  assert (G : forall i, i < m -> exists q, mcell (option nodal) view midf HALF ndim (N o ^ ndim) wh mask i = Ok (Some q) /\ alike (N o ^ ndim) q (if (mk i && HALF)%bool then half ndim (B i) else B i)).
  { intros i Hi. unfold mcell. rewrite Hm by exact Hi. cbn [bind]. rewrite (gather_is (rd wh) (B i)) by (intros s Hs; apply Hr; assumption). cbn [bind].
    destruct (mk i && HALF)%bool eqn:E.
    - apply Bool.andb_true_iff in E. destruct E as [E E']. apply half_is; [exact Hn|reflexivity|]. intros q. apply (HVal E' i q Hi E).
    - destruct (view_is (B i) (N o ^ ndim)) as [q [-> Q]]. eauto. }
  destruct (midstepper_ok (N o) N1 (option nodal) view midf HALF ndim (N o ^ ndim) (balloc m) wh mask
     (fun i => match mcell (option nodal) view midf HALF ndim (N o ^ ndim) wh mask i with Ok r => r | _ => None end)) as [rec [Er [Lr Vr]]].
  - cbn [balloc blen]. lia.
  - intros i Hi. destruct (G i ltac:(lia)) as [q [-> _]]. reflexivity.
  - exists rec, (fun i => match bdat rec i with Some (Some q) => q | _ => zblk end). split; [exact Er|]. split; [exact Lr|]. split.
    + intros i Hi. specialize (Vr i ltac:(lia)). destruct (G i Hi) as [q [Eq _]]. rewrite Eq in Vr. now rewrite Vr.
    + intros i Hi. specialize (Vr i ltac:(lia)). destruct (G i Hi) as [q [Eq A]]. rewrite Eq in Vr. rewrite Vr. exact A.
Qed.

Variable Phi : nat -> list num -> res (option (nat -> option nodal)).
Lemma pred_is ndim n wh mask mk (B : nat -> nodal) : (forall i, i < n -> mk i = true -> exists f, Phi ndim (map (fun s => Some (B i s)) (seq 0 (N o ^ ndim))) = Ok (Some f) /\ forall t, t < N o -> exists q, f t = Some q) ->
  (forall i s, i < n -> s < N o ^ ndim -> rd wh (i * N o ^ ndim + s) = Ok (Some (B i s))) ->
  blen mask = n -> (forall i, i < n -> rd mask i = Ok (mk i)) ->
  exists qh q, predictor (N o) (option nodal) Phi ndim (N o ^ ndim) (balloc (n * N o)) wh mask = Ok qh /\ blen qh = n * N o /\
    (forall a, match bdat qh a with Some b => unwrap b | None => zblk end = q a) /\
    (forall i t, t < N o -> i * N o + t < blen qh -> rd mask i = Ok true -> bdat qh (i * N o + t) = Some (Some (q (i * N o + t)))) /\
    (forall i t, i < n -> t < N o -> mk i = true -> q (i * N o + t) = predicted o Phi ndim (B i) t).
Proof using N1.
  intros HT Hr Lm Hm.
  set (l := fun i => map (fun s => Some (B i s)) (seq 0 (N o ^ ndim))).
  assert (G : forall i, i < n -> pcell (option nodal) Phi ndim (N o ^ ndim) wh mask i = if mk i then Phi ndim (l i) else Ok None).
  { intros i Hi. unfold pcell. rewrite Hm by exact Hi. cbn [bind]. destruct (mk i); [|reflexivity]. rewrite (gather_is (rd wh) (B i)) by (intros s Hs; apply Hr; assumption). reflexivity. }
  destruct (predictor_ok (N o) N1 (option nodal) Phi ndim (N o ^ ndim) (balloc (n * N o)) wh mask
     (fun i => if mk i then match Phi ndim (l i) with Ok r => r | _ => None end else None)) as [qh [Eq [Lq Vq]]].
  - cbn [balloc blen]. lia.
  - intros i Hi. rewrite G by lia. destruct (mk i) eqn:Mi; [|reflexivity]. destruct (HT i ltac:(lia) Mi) as [f [Ef _]]. fold (l i) in Ef. rewrite Ef. reflexivity.
  - cbn [balloc blen] in Lq.
    assert (Z : forall i t, i < n -> t < N o -> mk i = true -> exists q, bdat qh (i * N o + t) = Some (Some q) /\ predicted o Phi ndim (B i) t = q).
    { intros i t Hi Ht Mi. specialize (Vq i t ltac:(lia) Ht). rewrite Mi in Vq. destruct (HT i Hi Mi) as [f [E F]]. fold (l i) in E. rewrite E in Vq. destruct (F t Ht) as [q Eqt]. rewrite Eqt in Vq. exists q. split; [exact Vq|].
      unfold predicted. fold (l i). rewrite E, Eqt. reflexivity. }
    exists qh, (fun a => match bdat qh a with Some b => unwrap b | None => zblk end). split; [exact Eq|]. split; [exact Lq|]. split; [reflexivity|]. split.
    + intros i t Ht Hi Mi. assert (Ii : i < n) by (rewrite Lq in Hi; nia). rewrite Hm in Mi by exact Ii. injection Mi as Mi. destruct (Z i t Ii Ht Mi) as [q [-> _]]. reflexivity.
    + intros i t Hi Ht Mi. destruct (Z i t Hi Ht Mi) as [q [-> ->]]. reflexivity.
Qed.
End Mid.

(** ** the finite volume sums only use the blocks of marked cells, at their nodes *)
Section Sums.
Variable o : options.
Variable ph : phys.
Variables NODES WGHTS : nat -> R.
Variables ENDVALS DERVALS : nat -> nat -> R.
Variables (SOURCES : bool) (FLUX : nat).
Hypothesis N1 : 1 <= N o.
Notation fv1 := (fv1 o ph NODES WGHTS ENDVALS DERVALS SOURCES FLUX).
Notation fv2 := (fv2 o ph NODES WGHTS ENDVALS DERVALS SOURCES FLUX).
Lemma ends1_ext q r e : alike (N o) q r -> endpts1d o ENDVALS q e = endpts1d o ENDVALS r e.
Proof using N1. intros H. extensionality k. unfold endpts1d. apply rsum_ext. intros j Hj. rewrite H by exact Hj. reflexivity. Qed.
Lemma ends2_ext q r d e s : s < N o -> alike (N o ^ 2) q r -> endpts2d o ENDVALS q d e s = endpts2d o ENDVALS r d e s.
Proof using N1. intros Hs H. rewrite Nat.pow_2_r in H. extensionality k. unfold endpts2d. destruct d; apply rsum_ext; intros j Hj; rewrite H by (apply pack_bound; assumption); reflexivity. Qed.
Lemma volume1_ext dx q r k : alike (N o) q r -> volume1 o ph WGHTS DERVALS SOURCES dx q k = volume1 o ph WGHTS DERVALS SOURCES dx r k.
Proof using N1.
  intros H. unfold volume1. apply rsum_ext. intros s Hs. rewrite (H s Hs). replace (derivs1d o DERVALS q s) with (derivs1d o DERVALS r s) by (extensionality j; symmetry; apply derivs1d_ext, H). reflexivity.
Qed.
Lemma volume2_ext dx dy q r k : alike (N o ^ 2) q r -> volume2 o ph WGHTS DERVALS SOURCES dx dy q k = volume2 o ph WGHTS DERVALS SOURCES dx dy r k.
Proof using N1.
  intros H. unfold volume2. apply rsum_ext. intros a Ha. apply rsum_ext. intros b Hb. cbv zeta. assert (Hs : a * N o + b < N o ^ 2) by (rewrite Nat.pow_2_r; apply pack_bound; assumption). rewrite (H _ Hs).
  replace (derivs2d o DERVALS q 0 (a * N o + b)) with (derivs2d o DERVALS r 0 (a * N o + b)) by (extensionality j; symmetry; apply derivs2d_ext; assumption).
  replace (derivs2d o DERVALS q 1 (a * N o + b)) with (derivs2d o DERVALS r 1 (a * N o + b)) by (extensionality j; symmetry; apply derivs2d_ext; assumption). reflexivity.
Qed.
Lemma on_ext b x y : (b = true -> x = y) -> FvSpec.on b x = FvSpec.on b y.
Proof using N1. destruct b; cbn; auto. Qed.
Lemma fv1_ext nt w dx q r m m' x x' c k : (forall i t, c <= i <= S (S c) -> t < nt -> m i = true -> alike (N o) (q i t) (r i t)) ->
  (forall i, c <= i <= S (S c) -> m i = m' i) -> x c k = x' c k -> fv1 nt w dx q m x c k = fv1 nt w dx r m' x' c k.
Proof using N1.
  intros H M X. unfold FvSpec.fv1. rewrite X. rewrite <- !M by lia. f_equal; [f_equal|]; apply rsum_ext; intros t Ht.
  - f_equal. apply on_ext. intros Mi. apply volume1_ext, H; try assumption; lia.
  - f_equal. f_equal; apply on_ext; intros Mi; apply Bool.andb_true_iff in Mi; destruct Mi as [Mi Mj]; unfold out1, in1; (erewrite (ends1_ext (q _ t) (r _ t)) by (apply H; [|exact Ht|exact Mi]; lia)); (erewrite (ends1_ext (q _ t) (r _ t) 0) by (apply H; [|exact Ht|exact Mj]; lia)); reflexivity.
Qed.
Lemma face2_ext d l l' r r' k : alike (N o ^ 2) l l' -> alike (N o ^ 2) r r' -> out2 o ph NODES WGHTS ENDVALS FLUX d l r k = out2 o ph NODES WGHTS ENDVALS FLUX d l' r' k /\ in2 o ph NODES WGHTS ENDVALS FLUX d l r k = in2 o ph NODES WGHTS ENDVALS FLUX d l' r' k.
Proof using N1.
  intros Hl Hr. unfold out2, in2. split; apply rsum_ext; intros s Hs; rewrite (ends2_ext l l' d 1 s Hs Hl), (ends2_ext r r' d 0 s Hs Hr); reflexivity.
Qed.
Lemma fv2_ext nt w dx dy q r m m' x x' a b k : (forall i j t, a <= i <= S (S a) -> b <= j <= S (S b) -> (i = S a \/ j = S b) -> t < nt -> m i j = true -> alike (N o ^ 2) (q i j t) (r i j t)) ->
  (forall i j, a <= i <= S (S a) -> b <= j <= S (S b) -> (i = S a \/ j = S b) -> m i j = m' i j) -> x a b k = x' a b k -> fv2 nt w dx dy q m x a b k = fv2 nt w dx dy r m' x' a b k.
Proof using N1.
  intros H M X. unfold FvSpec.fv2. cbv zeta. rewrite X. rewrite <- !M by lia. f_equal; [f_equal; [f_equal|]|]; apply rsum_ext; intros t Ht.
  - f_equal. apply on_ext. intros Mi. apply volume2_ext, H; try assumption; lia.
  - f_equal. f_equal; apply on_ext; intros Mi; apply Bool.andb_true_iff in Mi; destruct Mi as [Mi Mj]; apply face2_ext; (apply H; [lia|lia|lia|exact Ht|assumption]).
  - f_equal. f_equal; apply on_ext; intros Mi; apply Bool.andb_true_iff in Mi; destruct Mi as [Mi Mj]; apply face2_ext; (apply H; [lia|lia|lia|exact Ht|assumption]).
Qed.
End Sums.
