(** One step of the mirrored field is the mirrored step. *)
From Coq Require Import Reals Lia Lra ZArith FunctionalExtensionality.
From Verif Require Import Base Options Sum Mat3 EqModel EqSpec FvModel FvBody FvSpec WenoModel GridSpec UtilsModel RefSpec MirrorSpec MirrorProof2.
Import List ListNotations.
Open Scope R_scope.

Section Step.
Variable o : options.
Variables NODES WGHTS : nat -> R.
Variables ENDVALS DERVALS : nat -> nat -> R.
Variables (SIG : nat -> nat -> R) (LAMS LAMC EPS : R) (inv : stencil -> (nat -> R) -> nat -> R).
Variable wallf : nat -> nat -> num -> num.
Variable ph : phys.
Variable prim : option ((num -> num) * (num -> num)).
Variable predict : nat -> list num -> res (option (nat -> option nodal)).
Variable ode : num -> num.
Variables (SPLIT HALF : bool) (FLUX : nat) (bt bt' : nat -> nat) (dt : R).
Notation N := (Options.N o).
Notation T := (mirror o).
Notation mirrored := (mirrored o).
Notation sg := (sign o).
Hypothesis HP : mirrors o ph FLUX.
Hypothesis HM : MULTI o = false.
Hypothesis HV : VISCOUS o = true.
Hypothesis HN : forall i, (i < N)%nat -> NODES (N - 1 - i)%nat = 1 - NODES i.
Hypothesis HWt : forall i, (i < N)%nat -> WGHTS (N - 1 - i)%nat = WGHTS i.
Hypothesis HE : forall e j, (e < 2)%nat -> (j < N)%nat -> ENDVALS (1 - e)%nat (N - 1 - j)%nat = ENDVALS e j.
Hypothesis HDr : forall i j, (i < N)%nat -> (j < N)%nat -> DERVALS (N - 1 - i)%nat (N - 1 - j)%nat = - DERVALS i j.
Hypothesis HRec : forall s w w' i, s * s = 1 -> (forall k, (k < 2 * N - 1)%nat -> w' k = s * w (2 * N - 2 - k)%nat) -> (i < N)%nat ->
  reconstruct N SIG LAMS LAMC EPS inv w' i = s * reconstruct N SIG LAMS LAMC EPS inv w (N - 1 - i)%nat.
Definition keeps (f : num -> num) : Prop := forall q, at_numbers f (T q) = T (at_numbers f q).
Hypothesis Hprim : forall p c, prim = Some (p, c) -> keeps p /\ keeps c.
Hypothesis Hode : SPLIT = true -> keeps ode.
Hypothesis Hpred : SPLIT = false -> forall q q' t, (t < N)%nat -> mirrored q q' -> mirrored (predicted o predict 1 q t) (predicted o predict 1 q' t).
Hypothesis Hwall : forall ty, ty = bt 0%nat \/ ty = bt 1%nat -> keeps (wallf ty 0).
Hypothesis Hbt : bt' 0%nat = bt 1%nat /\ bt' 1%nat = bt 0%nat.
Variables (n : nat) (dx : R) (x x' : nat -> vec) (m m' : nat -> bool).
Hypothesis Hn : (1 <= N <= n)%nat.
Hypothesis Hx : forall c, (c < n)%nat -> x' c = T (x (n - 1 - c)%nat).
Hypothesis Hm : forall c, (c < n)%nat -> m' c = m (n - 1 - c)%nat.
Notation block1 := (block1 N SIG LAMS LAMC EPS inv prim).
Notation Zn := (Z.of_nat n).
Notation ext b f := (extended1 wallf b n f).
Notation seen b f k := (seen1 o DERVALS SIG LAMS LAMC EPS inv wallf ph prim predict ode SPLIT HALF b dt n dx f k).
Notation new b f k := (new1 o NODES WGHTS ENDVALS DERVALS SIG LAMS LAMC EPS inv wallf ph prim predict ode SPLIT HALF FLUX b dt n dx f k).
Notation relaxed := (relaxed ode SPLIT).

Lemma relaxed_mirror q : relaxed (T q) = T (relaxed q).
Proof using Hode. clear - Hode. unfold RefSpec.relaxed. destruct SPLIT; [apply Hode; reflexivity|reflexivity]. Qed.
Lemma extended_mirror z : (- Zn <= z < 2 * Zn)%Z -> ext bt' x' z = T (ext bt x (Zn - 1 - z)%Z).
Proof using Hwall Hbt Hx Hn.
  clear - Hwall Hbt Hx Hn. intros Hz. destruct Hbt as [-> ->] || destruct Hbt as [B0 B1]. unfold extended1, extend1. rewrite ?B0, ?B1.
  assert (X : forall y, (0 <= y < Zn)%Z -> x' (Z.to_nat y) = T (x (Z.to_nat (Zn - 1 - y)))) by (intros y Hy; rewrite Hx by lia; do 2 f_equal; lia).
  destruct (Z.ltb_spec z 0); destruct (Z.ltb_spec (Zn - 1 - z) 0); try lia.
  - destruct (Z.ltb_spec (Zn - 1 - z) Zn); try lia. unfold ghost. destruct (bt 1%nat) as [|[|k]] eqn:E.
    + cbn [val]. rewrite X by lia. do 3 f_equal. lia.
    + cbn [val]. rewrite X by (apply Z.mod_pos_bound; lia). do 3 f_equal.
      replace (Zn - 1 - z)%Z with (Zn - 1 + - z)%Z by lia. pose proof (Z.div_mod z Zn ltac:(lia)) as D. pose proof (Z.mod_pos_bound z Zn ltac:(lia)).
      apply (Z.mod_unique _ _ (- (z / Zn))); lia.
    + rewrite X by lia. replace (Zn - 1 - (-1 - z))%Z with (2 * Zn - 1 - (Zn - 1 - z))%Z by lia. apply (Hwall (S (S k))). right. reflexivity.
  - destruct (Z.ltb_spec z Zn); try lia. unfold ghost. destruct (bt 0%nat) as [|[|k]] eqn:E.
    + cbn [val]. rewrite X by lia. do 3 f_equal. lia.
    + cbn [val]. rewrite X by (apply Z.mod_pos_bound; lia). do 3 f_equal.
      pose proof (Z.div_mod z Zn ltac:(lia)) as D. pose proof (Z.mod_pos_bound z Zn ltac:(lia)).
      apply (Z.mod_unique _ _ (- (z / Zn))); lia.
    + rewrite X by lia. replace (Zn - 1 - (2 * Zn - 1 - z))%Z with (-1 - (Zn - 1 - z))%Z by lia. apply (Hwall (S (S k))). left. reflexivity.
  - destruct (Z.ltb_spec z Zn); destruct (Z.ltb_spec (Zn - 1 - z) Zn); try lia. cbn [val]. apply X. lia.
Qed.
Lemma before_mirror q : before prim (T q) = T (before prim q).
Proof using Hprim. clear - Hprim. unfold before. destruct prim as [[p c]|]; [|reflexivity]. apply (Hprim p c eq_refl). Qed.
Lemma after_mirror q : after prim (T q) = T (after prim q).
Proof using Hprim. clear - Hprim. unfold after. destruct prim as [[p c]|]; [|reflexivity]. apply (Hprim p c eq_refl). Qed.
Lemma block_mirror1 E E' z z' : (forall d, (Z.abs d < Z.of_nat N)%Z -> E' (z' + d)%Z = T (E (z - d)%Z)) -> mirrored (block1 E z) (block1 E' z').
Proof using HRec Hprim.
  clear - HRec Hprim. intros H s Hs. unfold RefSpec.block1. rewrite <- after_mirror. f_equal. apply functional_extensionality. intros v. unfold mirror at 1.
  apply HRec; [apply sign_sq| |exact Hs]. intros k Hk. replace (z' - Z.of_nat N + 1 + Z.of_nat k)%Z with (z' + (Z.of_nat k + 1 - Z.of_nat N))%Z by lia. rewrite H by lia. rewrite before_mirror. unfold mirror. do 3 f_equal. lia.
Qed.
Lemma spread_mirror z : spread1 n m' z = spread1 n m (Zn - 1 - z)%Z.
Proof using Hm Hn.
  clear - Hm Hn. unfold spread1. cbv zeta. apply Bool.eq_true_iff_eq. rewrite !existsb_exists. split; intros (k & Hk & E); apply in_seq in Hk; exists (n - 1 - k)%nat; (split; [apply in_seq; lia|]); apply Bool.andb_true_iff in E; destruct E as [E E3]; apply Bool.andb_true_iff in E; destruct E as [E1 E2];
  apply Nat.leb_le in E2; apply Nat.leb_le in E3; rewrite !Bool.andb_true_iff; (split; [split|]).
  - rewrite <- Hm by lia. exact E1.
  - apply Nat.leb_le. lia.
  - apply Nat.leb_le. lia.
  - rewrite Hm by lia. replace (n - 1 - (n - 1 - k))%nat with k by lia. exact E1.
  - apply Nat.leb_le. lia.
  - apply Nat.leb_le. lia.
Qed.
Lemma seen_mirror z t : (-1 <= z <= Zn)%Z -> (t < time_nodes o SPLIT)%nat -> mirrored (seen bt x m (Zn - 1 - z)%Z t) (seen bt' x' m' z t).
Proof using HP HM HV HDr HRec Hprim Hode Hpred Hwall Hbt Hx Hm Hn.
  intros Hz Ht. unfold seen1. cbv zeta. rewrite spread_mirror.
  assert (B : mirrored (block1 (fun z => relaxed (ext bt x z)) (Zn - 1 - z)) (block1 (fun z => relaxed (ext bt' x' z)) z)).
  { apply block_mirror1. intros d Hd. rewrite extended_mirror by lia. rewrite relaxed_mirror. do 3 f_equal. lia. }
  unfold time_nodes in Ht. destruct SPLIT; [|apply Hpred; [reflexivity|exact Ht|exact B]]. destruct (spread1 n m (Zn - 1 - z) && HALF)%bool; [|exact B]. apply (half_mirrored o ph DERVALS FLUX); assumption.
Qed.
Lemma new_mirror c : (c < n)%nat -> new bt' x' m' c = T (new bt x m (n - 1 - c)%nat).
Proof using HP HM HV HN HWt HE HDr HRec Hprim Hode Hpred Hwall Hbt Hx Hm Hn.
  intros Hc. unfold new1. unfold raw1. rewrite <- relaxed_mirror. f_equal. apply functional_extensionality. intros k. unfold mirror at 1. unfold fv1. cbv beta zeta.
  assert (Sm : forall i, (i <= n + 1)%nat -> spread1 n m' (Z.of_nat i - 1) = spread1 n m (Z.of_nat (n + 1 - i) - 1)) by (intros i Hi; rewrite spread_mirror; f_equal; lia).
  assert (Sq : forall i t, (i <= n + 1)%nat -> (t < time_nodes o SPLIT)%nat -> mirrored (seen bt x m (Z.of_nat (n + 1 - i) - 1)%Z t) (seen bt' x' m' (Z.of_nat i - 1)%Z t)).
  { intros i t Hi Ht. replace (Z.of_nat (n + 1 - i) - 1)%Z with (Zn - 1 - (Z.of_nat i - 1))%Z by lia. apply seen_mirror; [lia|exact Ht]. }
  rewrite !Sm by lia. replace (n + 1 - S c)%nat with (S (n - 1 - c)) by lia. replace (n + 1 - S (S c))%nat with (n - 1 - c)%nat by lia. replace (n + 1 - c)%nat with (S (S (n - 1 - c))) by lia.
  rewrite Hx by exact Hc. rewrite relaxed_mirror. unfold mirror at 1.
  set (b := spread1 n m (Z.of_nat (S (n - 1 - c)) - 1)). set (b0 := spread1 n m (Z.of_nat (n - 1 - c) - 1)). set (b2 := spread1 n m (Z.of_nat (S (S (n - 1 - c))) - 1)).
  rewrite (rsum_ext _ (fun t => weight_at WGHTS SPLIT dt t * on b _) (fun t => sg k * (weight_at WGHTS SPLIT dt t * on b (volume1 o ph WGHTS DERVALS (negb SPLIT) dx (seen bt x m (Z.of_nat (S (n - 1 - c)) - 1)%Z t) k)))).
  2:{ intros t Ht. rewrite (volume_mirrored o ph WGHTS DERVALS FLUX HP HWt HDr _ dx (seen bt x m (Z.of_nat (S (n - 1 - c)) - 1)%Z t)).
      - unfold on. destruct b; ring.
      - replace (S (n - 1 - c)) with (n + 1 - S c)%nat by lia. apply Sq; [lia|exact Ht]. }
  rewrite rsum_scal.
  match goal with |- _ + _ - ?s = _ => match goal with |- context [_ + rsum ?nt ?f - rsum ?nt ?g] => assert (X : s = sg k * rsum nt g) end end.
  - rewrite <- rsum_scal. apply rsum_ext. intros t Ht.
    rewrite (out_mirrored o ph NODES WGHTS ENDVALS FLUX HP HM HV HN HWt HE (seen bt x m (Z.of_nat (n - 1 - c) - 1)%Z t) (seen bt x m (Z.of_nat (S (n - 1 - c)) - 1)%Z t)).
    + rewrite (in_mirrored o ph NODES WGHTS ENDVALS FLUX HP HM HV HN HWt HE (seen bt x m (Z.of_nat (S (n - 1 - c)) - 1)%Z t) (seen bt x m (Z.of_nat (S (S (n - 1 - c))) - 1)%Z t) (seen bt' x' m' (Z.of_nat c - 1)%Z t) (seen bt' x' m' (Z.of_nat (S c) - 1)%Z t)).
      * unfold on. rewrite (Bool.andb_comm b b0), (Bool.andb_comm b b2). destruct (b0 && b)%bool, (b2 && b)%bool; unfold Rdiv; ring.
      * replace (S (n - 1 - c)) with (n + 1 - S c)%nat by lia. apply Sq; [lia|exact Ht].
      * replace (S (S (n - 1 - c))) with (n + 1 - c)%nat by lia. apply Sq; [lia|exact Ht].
    + replace (n - 1 - c)%nat with (n + 1 - S (S c))%nat by lia. apply Sq; [lia|exact Ht].
    + replace (S (n - 1 - c)) with (n + 1 - S c)%nat by lia. apply Sq; [lia|exact Ht].
  - rewrite X. ring.
Qed.
End Step.
