(** A 2-D step of a field that does not vary along y is the 1-D step of its rows along x. *)
From Coq Require Import Reals Lia Lra ZArith FunctionalExtensionality.
From Verif Require Import Base Options Sum EqModel EqSpec FvModel FvBody FvSpec FvProof FvProps PolyModel WenoModel WenoSpec WenoProof WenoProof2 WenoProps DgModel GridModel GridSpec UtilsModel RefSpec RefProof.
Import List ListNotations.
Open Scope nat_scope.

(** the nodal values of a block that does not vary along y: node (a, b) is the (a N + b)-th *)
Definition lifted (n : nat) (q : nodal) : nodal := fun s => q (s / n).

Section Flat.
Variable o : options.
Variable ph : phys.
Variables NODES WGHTS : nat -> R.
Variables ENDVALS DERVALS : nat -> nat -> R.
Variables (SOURCES : bool) (FLUX : nat) (dt : R).
Hypothesis N1 : 1 <= N o.
Hypothesis HW : rsum (N o) WGHTS = 1%R.
Hypothesis HP : FvProps.partition o ENDVALS DERVALS.
Notation lifted := (lifted (N o)).
Notation F q d := (flux o ph (fun _ => 0%R) q d).

Lemma pack_div a b : b < N o -> (a * N o + b) / N o = a.
Proof using N1. intros H. rewrite Nat.div_add_l by lia. rewrite Nat.div_small by exact H. lia. Qed.
Lemma lifted_at q a b : b < N o -> lifted q (a * N o + b) = q a.
Proof using N1. intros H. unfold FlatProof.lifted. rewrite pack_div by exact H. reflexivity. Qed.
Lemma node_div s : s < N o ^ 2 -> s / N o < N o.
Proof using N1. intros H. rewrite Nat.pow_2_r in H. apply Nat.div_lt_upper_bound; lia. Qed.
Lemma node_mod s : s mod N o < N o.
Proof using N1. apply Nat.mod_upper_bound. lia. Qed.
Lemma ders0 q s k : s < N o ^ 2 -> derivs2d o DERVALS (lifted q) 0 s k = derivs1d o DERVALS q (s / N o) k.
Proof using N1. intros Hs. unfold derivs2d, derivs1d. apply rsum_ext. intros r Hr. rewrite lifted_at by apply node_mod. reflexivity. Qed.
Lemma ders1 q s k : s < N o ^ 2 -> derivs2d o DERVALS (lifted q) 1 s k = 0%R.
Proof using N1 HP.
  intros Hs. unfold derivs2d. rewrite (rsum_ext _ _ (fun r => q (s / N o)%nat k * DERVALS (s mod N o)%nat r)%R) by (intros r Hr; rewrite lifted_at by exact Hr; ring). rewrite rsum_scal. rewrite (proj2 HP) by apply node_mod. ring.
Qed.
Lemma ends0 q e s : s < N o -> endpts2d o ENDVALS (lifted q) 0 e s = endpts1d o ENDVALS q e.
Proof using N1. intros Hs. apply functional_extensionality. intros k. unfold endpts2d, endpts1d. apply rsum_ext. intros r Hr. rewrite lifted_at by exact Hs. reflexivity. Qed.
Lemma ends1 q e s : e < 2 -> endpts2d o ENDVALS (lifted q) 1 e s = q s.
Proof using N1 HP.
  intros He. apply functional_extensionality. intros k. unfold endpts2d. rewrite (rsum_ext _ _ (fun r => q s k * ENDVALS e r)%R) by (intros r Hr; rewrite lifted_at by exact Hr; ring). rewrite rsum_scal, (proj1 HP) by exact He. ring.
Qed.
Lemma average c : rsum (N o) (fun s => (WGHTS s * c)%R) = c.
Proof using HW. rewrite (rsum_ext _ _ (fun s => c * WGHTS s)%R) by (intros; ring). rewrite rsum_scal, HW. ring. Qed.

Lemma half_flat dx dy q s : s < N o ^ 2 -> half2 o DERVALS ph dt dx dy (lifted q) s = half1 o DERVALS ph dt dx q (s / N o).
Proof using N1 HP.
  intros Hs. apply functional_extensionality. intros k. unfold half2, half1.
  change (fun r => F (lifted q r) 0) with (lifted (fun r => F (q r) 0)). change (fun r => F (lifted q r) 1) with (lifted (fun r => F (q r) 1)).
  rewrite ders0, ders1 by exact Hs. change (lifted q s) with (q (s / N o)).
  replace (derivs2d o DERVALS (lifted q) 0 s) with (derivs1d o DERVALS q (s / N o)) by (apply functional_extensionality; intros i; symmetry; apply ders0, Hs).
  rewrite (noncons_0 o _ (derivs2d o DERVALS (lifted q) 1 s)) by (intros i; apply ders1, Hs). unfold Rdiv. ring.
Qed.
Lemma half2_ext dx dy q r s : s < N o ^ 2 -> alike (N o ^ 2) q r -> half2 o DERVALS ph dt dx dy q s = half2 o DERVALS ph dt dx dy r s.
Proof using N1.
  intros Hs H. apply functional_extensionality. intros k. unfold half2. rewrite (H s Hs).
  rewrite (derivs2d_ext o N1 DERVALS (fun i => F (q i) 0) (fun i => F (r i) 0)) by (try exact Hs; intros i Hi; rewrite (H i Hi); reflexivity).
  rewrite (derivs2d_ext o N1 DERVALS (fun i => F (q i) 1) (fun i => F (r i) 1)) by (try exact Hs; intros i Hi; rewrite (H i Hi); reflexivity).
  replace (derivs2d o DERVALS q 0 s) with (derivs2d o DERVALS r 0 s) by (apply functional_extensionality; intros; symmetry; apply derivs2d_ext; assumption).
  replace (derivs2d o DERVALS q 1 s) with (derivs2d o DERVALS r 1 s) by (apply functional_extensionality; intros; symmetry; apply derivs2d_ext; assumption). reflexivity.
Qed.

Lemma volume_flat dx dy q k : volume2 o ph WGHTS DERVALS SOURCES dx dy (lifted q) k = volume1 o ph WGHTS DERVALS SOURCES dx q k.
Proof using N1 HP HW.
  unfold volume2, volume1. apply rsum_ext. intros a Ha. cbv zeta.
  assert (P : forall b, b < N o -> a * N o + b < N o ^ 2) by (intros b Hb; rewrite Nat.pow_2_r; apply pack_bound; assumption).
  rewrite (rsum_ext _ _ (fun b => WGHTS b * (WGHTS a * (src ph SOURCES (q a) k - noncons o (q a) (derivs1d o DERVALS q a) 0 k / dx)))%R); [apply average|].
  intros b Hb. rewrite lifted_at by exact Hb. rewrite (noncons_0 o _ (derivs2d o DERVALS (lifted q) 1 (a * N o + b))) by (intros i; apply ders1, P, Hb).
  replace (derivs2d o DERVALS (lifted q) 0 (a * N o + b)) with (derivs1d o DERVALS q a); [unfold Rdiv; ring|].
  apply functional_extensionality. intros i. rewrite ders0 by (apply P, Hb). rewrite pack_div by exact Hb. reflexivity.
Qed.
Lemma out_flat l r k : out2 o ph NODES WGHTS ENDVALS FLUX 0 (lifted l) (lifted r) k = out1 o ph NODES WGHTS ENDVALS FLUX l r k.
Proof using N1 HW. unfold out2, out1. cbv zeta. erewrite rsum_ext; [apply average|]. intros s Hs. cbv beta. rewrite !ends0 by exact Hs. reflexivity. Qed.
Lemma in_flat l r k : in2 o ph NODES WGHTS ENDVALS FLUX 0 (lifted l) (lifted r) k = in1 o ph NODES WGHTS ENDVALS FLUX l r k.
Proof using N1 HW. unfold in2, in1. cbv zeta. erewrite rsum_ext; [apply average|]. intros s Hs. cbv beta. rewrite !ends0 by exact Hs. reflexivity. Qed.
Lemma jump_none q d k : jump o NODES WGHTS q q d k = 0%R.
Proof using. unfold jump. apply rsum_zero. intros i Hi. rewrite noncons_0; [ring|]. intros j. ring. Qed.
(** what leaves through the upper face enters through the lower one *)
Lemma across_flat q k : (out2 o ph NODES WGHTS ENDVALS FLUX 1 (lifted q) (lifted q) k - in2 o ph NODES WGHTS ENDVALS FLUX 1 (lifted q) (lifted q) k = 0)%R.
Proof using N1 HP. unfold out2, in2. cbv zeta. rewrite <- rsum_minus. apply rsum_zero. intros s Hs. rewrite !ends1 by lia. rewrite jump_none. lra. Qed.

Lemma fv_flat nt w dx dy (q : nat -> nat -> nodal) x a b k :
  fv2 o ph NODES WGHTS ENDVALS DERVALS SOURCES FLUX nt w dx dy (fun i _ t => lifted (q i t)) (fun _ _ => true) (fun a _ => x a) a b k =
  fv1 o ph NODES WGHTS ENDVALS DERVALS SOURCES FLUX nt w dx q (fun _ => true) x a k.
Proof using N1 HP HW.
  unfold fv2, fv1. cbv zeta. cbn [andb on]. match goal with |- (_ - ?s = _)%R => assert (Z : s = 0%R) by (apply rsum_zero; intros t Ht; rewrite across_flat; ring) end. rewrite Z, Rminus_0_r.
  f_equal; [f_equal|]; apply rsum_ext; intros t Ht; f_equal; [apply volume_flat|]. rewrite out_flat, in_flat. reflexivity.
Qed.
End Flat.

Section Weno.
Variables (nodes : list R) (bs : list poly) (SIG : nat -> nat -> R) (LAMS LAMC EPS : R) (inv : stencil -> (nat -> R) -> nat -> R).
Hypothesis HW : weno_setup nodes bs inv SIG LAMS LAMC EPS.
Notation n := (length nodes).
Lemma reconstruct_const c i : i < n -> reconstruct n SIG LAMS LAMC EPS inv (fun _ => c) i = c.
Proof using HW.
  intros Hi. destruct HW as (DN & Hb & L1 & SV & L2 & L3 & L4 & PS).
  pose proof (combine_is n SIG LAMS LAMC EPS inv L1 (fun _ _ => c) i 0) as E. cbv beta in E. rewrite <- E.
  rewrite (combine_exact nodes bs DN Hb L1 inv SV SIG LAMS LAMC EPS (conj L2 L3)) with (q := [c]).
  - rewrite eval_cons, eval_nil. ring.
  - intros w. specialize (PS w). lra.
  - unfold stencils. discriminate.
  - cbn [length]. exact L1.
  - intros k Hk. apply (@Coquelicot.RInt.is_RInt_ext Coquelicot.Hierarchy.R_NormedModule (fun _ => c)); [intros t _; change (c = evaluate [c] t); rewrite eval_cons, eval_nil; ring|].
    pose proof (Coquelicot.RInt.is_RInt_const (V := Coquelicot.Hierarchy.R_NormedModule) (INR k - INR (n - 1)) (INR k - INR (n - 1) + 1) c) as C. unfold Coquelicot.Hierarchy.scal in C. cbn in C. unfold Coquelicot.Hierarchy.mult in C. cbn in C.
    replace ((INR k - INR (n - 1) + 1 - (INR k - INR (n - 1))) * c)%R with c in C by ring. exact C.
  - exact Hi.
Qed.
Variable prim : option ((num -> num) * (num -> num)).
Lemma block_flat (E : Z -> Z -> vec) (E1 : Z -> vec) x y s : (forall a b, E a b = E1 a) -> s < n ^ 2 ->
  block2 n SIG LAMS LAMC EPS inv prim E x y s = block1 n SIG LAMS LAMC EPS inv prim E1 x (s / n).
Proof using HW.
  intros H Hs. assert (L1 : 1 <= n) by (destruct HW as (_ & _ & L1 & _); exact L1). unfold block2, block1. f_equal. apply functional_extensionality. intros v.
  transitivity (reconstruct n SIG LAMS LAMC EPS inv (fun _ => reconstruct n SIG LAMS LAMC EPS inv (fun k => before prim (E1 (x - Z.of_nat n + 1 + Z.of_nat k)%Z) v) (s / n)) (s mod n)).
  - f_equal. apply functional_extensionality. intros l. f_equal. apply functional_extensionality. intros k. rewrite H. reflexivity.
  - apply reconstruct_const, Nat.mod_upper_bound. lia.
Qed.
End Weno.

Section Step.
Variable o : options.
Variables (nodes : list R) (bs : list poly).
Variables NODES WGHTS : nat -> R.
Variables ENDVALS DERVALS : nat -> nat -> R.
Variables (SIG : nat -> nat -> R) (LAMS LAMC EPS : R) (inv : stencil -> (nat -> R) -> nat -> R).
Variable wallf : nat -> nat -> num -> num.
Variable ph : phys.
Variable prim : option ((num -> num) * (num -> num)).
Variable predict : nat -> list num -> res (option (nat -> option nodal)).
Variable ode : num -> num.
Variables (SPLIT HALF : bool) (FLUX : nat) (bt : nat -> nat) (dt : R).
Hypothesis Ln : length nodes = N o.
Hypothesis HW : weno_setup nodes bs inv SIG LAMS LAMC EPS.
Hypothesis HS : rsum (N o) WGHTS = 1%R.
Hypothesis HP : FvProps.partition o ENDVALS DERVALS.
(** nothing changes across the walls in y *)
Hypothesis B2 : bt 2 <= 1.
Hypothesis B3 : bt 3 <= 1.
Notation lifted := (lifted (N o)).
(** the predictor turns blocks that do not vary along y into such blocks, as in 1-D *)
Hypothesis Hpred : SPLIT = false -> forall q q2 t, t < N o -> alike (N o ^ 2) q2 (lifted q) -> alike (N o ^ 2) (predicted o predict 2 q2 t) (lifted (predicted o predict 1 q t)).
Variables (nx ny : nat) (dx dy : R) (x : nat -> vec).
Hypothesis Hx : 1 <= nx.
Hypothesis Hy : 1 <= ny.
Notation ext1 := (extended1 wallf bt nx x).
Notation ext2 := (extended2 wallf bt nx ny (fun a _ => x a)).
Lemma N1 : 1 <= N o. Proof using Ln HW. rewrite <- Ln. destruct HW as (_ & _ & L1 & _). exact L1. Qed.

Lemma ghost_const (c : num) ty d n y near mirror : ty <= 1 -> ghost num wallf ty d n (fun _ => c) y near mirror = c.
Proof using. clear - wallf. intros H. destruct ty as [|[|ty]]; [reflexivity|reflexivity|lia]. Qed.
Lemma extended_flat a b : ext2 a b = ext1 a.
Proof using B2 B3.
  unfold extended2, extended1, extend2. f_equal. unfold extend1 at 1. rewrite !ghost_const by assumption. destruct (b <? 0)%Z; [reflexivity|]. destruct (b <? Z.of_nat ny)%Z; reflexivity.
Qed.
Lemma spread1_all z : spread1 nx (fun _ => true) z = true.
Proof using Hx. clear - Hx. unfold spread1. apply existsb_exists. exists (Z.to_nat (Z.max 0 (Z.min z (Z.of_nat nx - 1)))). split; [apply in_seq; lia|]. rewrite Bool.andb_true_l. apply Bool.andb_true_iff. split; apply Nat.leb_le; lia. Qed.
Lemma spread2_all a b : (-1 <= a <= Z.of_nat nx)%Z -> (-1 <= b <= Z.of_nat ny)%Z -> (0 <= a < Z.of_nat nx \/ 0 <= b < Z.of_nat ny)%Z -> spread2 nx ny (fun _ _ => true) a b = true.
Proof using Hx Hy.
  clear - Hx Hy. intros Ha Hb Hc. unfold spread2. apply existsb_exists. exists (Z.to_nat (Z.max 0 (Z.min a (Z.of_nat nx - 1)))). split; [apply in_seq; lia|]. apply existsb_exists. exists (Z.to_nat (Z.max 0 (Z.min b (Z.of_nat ny - 1)))). split; [apply in_seq; lia|].
  rewrite Bool.andb_true_l. apply Z.leb_le. lia.
Qed.
Notation seen1 := (seen1 o DERVALS SIG LAMS LAMC EPS inv wallf ph prim predict ode SPLIT HALF bt dt nx dx x (fun _ => true)).
Notation seen2 := (seen2 o DERVALS SIG LAMS LAMC EPS inv wallf ph prim predict ode SPLIT HALF bt dt nx ny dx dy (fun a _ => x a) (fun _ _ => true)).
Lemma seen_flat a b t : (-1 <= a <= Z.of_nat nx)%Z -> (-1 <= b <= Z.of_nat ny)%Z -> (0 <= a < Z.of_nat nx \/ 0 <= b < Z.of_nat ny)%Z -> t < time_nodes o SPLIT ->
  alike (N o ^ 2) (seen2 a b t) (lifted (seen1 a t)).
Proof using Ln HW HP B2 B3 Hpred Hx Hy.
  clear HS. intros Ha Hb Hc Ht. assert (L := N1). unfold RefSpec.seen2, RefSpec.seen1. cbv zeta.
  set (q2 := block2 _ _ _ _ _ _ _ _ a b). set (q1 := block1 _ _ _ _ _ _ _ _ a).
  assert (A : alike (N o ^ 2) q2 (lifted q1)).
  { intros s Hs. unfold q2, q1, FlatProof.lifted. rewrite <- Ln in *. apply (block_flat nodes bs SIG LAMS LAMC EPS inv HW prim); [|exact Hs]. intros a' b'. rewrite extended_flat. reflexivity. }
  rewrite spread1_all, spread2_all by assumption. unfold time_nodes in Ht. destruct SPLIT; [|apply (Hpred eq_refl); [exact Ht|exact A]]. cbn [andb].
  destruct HALF; [|exact A]. intros s Hs. rewrite (half2_ext o ph DERVALS dt L dx dy q2 (lifted q1) s Hs A). rewrite (half_flat o ph ENDVALS DERVALS dt L HP) by exact Hs. reflexivity.
Qed.
Lemma new_flat a b : a < nx -> b < ny ->
  new2 o NODES WGHTS ENDVALS DERVALS SIG LAMS LAMC EPS inv wallf ph prim predict ode SPLIT HALF FLUX bt dt nx ny dx dy (fun a _ => x a) (fun _ _ => true) a b =
  new1 o NODES WGHTS ENDVALS DERVALS SIG LAMS LAMC EPS inv wallf ph prim predict ode SPLIT HALF FLUX bt dt nx dx x (fun _ => true) a.
Proof using Ln HW HS HP B2 B3 Hpred Hx Hy.
  intros Ha Hb. assert (L := N1). unfold new2, new1, raw2, raw1. f_equal. apply functional_extensionality. intros k.
  transitivity (fv2 o ph NODES WGHTS ENDVALS DERVALS (negb SPLIT) FLUX (time_nodes o SPLIT) (weight_at WGHTS SPLIT dt) dx dy (fun i _ t => lifted (seen1 (Z.of_nat i - 1) t)) (fun _ _ => true) (fun a _ => relaxed ode SPLIT (x a)) a b k).
  - apply fv2_ext; [exact L| |intros i j Hi Hj Hc; apply spread2_all; lia|reflexivity]. intros i j t Hi Hj Hc Ht _. apply seen_flat; [lia|lia|lia|exact Ht].
  - rewrite (fv_flat o ph NODES WGHTS ENDVALS DERVALS (negb SPLIT) FLUX L HS HP). f_equal; try reflexivity. apply functional_extensionality. intros i. symmetry. apply spread1_all.
Qed.
End Step.
