(** C18: one ADER step on a periodic grid conserves the totals. *)
From Coq Require Import Reals Lia Lra ZArith.
From Verif Require Import Base Options Sum EqModel EqSpec GridSpec GridProof2 FvModel FvBody FvSpec FvProof FvProps WenoModel StepperModel StepperProof GridModel
  AderModel AderProof AderProof2 AderProof3.
Import List ListNotations.
Open Scope nat_scope.

(** an array of n cells holding the finite states x *)
Definition holds (n : nat) (u : buf num) (x : nat -> vec) : Prop := blen u = n /\ forall c, c < n -> bdat u c = Some (Some (x c)).
Definition all_true (n : nat) (mask : buf bool) : Prop := blen mask = n /\ forall a, a < n -> bdat mask a = Some true.
(** the mask a run on a whole grid has: [extend_mask] of a mask that is true everywhere. In 2-D it is false at the four corners
    of the extended grid and true elsewhere. *)
Definition full_mask (nX : list nat) (mask : buf bool) : Prop :=
  exists mask0 maskb, all_true (fold_right Nat.mul 1 nX) mask0 /\ blen maskb = extended_dimensions nX 1 /\ extend_mask mask0 maskb nX = Ok mask.
Definition off_corner (nx ny i j : nat) : bool := ((1 <=? i) && (i <=? nx)) || ((1 <=? j) && (j <=? ny)).
Definition full2 (nx ny : nat) (mask : buf bool) : Prop := blen mask = (nx + 2) * (ny + 2) /\
  forall i j, i < nx + 2 -> j < ny + 2 -> bdat mask (i * (ny + 2) + j) = Some (off_corner nx ny i j).

Lemma full_mask_1 {nx mask} : 0 < nx -> full_mask [nx] mask -> all_true (nx + 2) mask.
Proof.
  intros Hn (m0 & mb & [L0 H0] & Lb & E). cbn [fold_right] in L0, H0. rewrite Nat.mul_1_r in L0, H0.
  destruct (extend_mask1_ok nx m0 (fun _ => true) L0 H0 mb Hn ltac:(rewrite Lb; cbn; lia)) as (mask' & E' & LM & v & HV & Hv & V0 & V1).
  rewrite E in E'. injection E' as <-. split; [exact LM|].
  assert (T : forall i, i < nx -> v (i + 1) = true) by (intros i Hi; apply Hv; [exact Hi|]; exists i; repeat split; lia).
  intros a Ha. rewrite HV by exact Ha. f_equal. destruct (Nat.eq_dec a 0) as [->|A0]; [rewrite V0; apply (T 0 Hn)|].
  destruct (Nat.eq_dec a (nx + 1)) as [->|A1]; [rewrite V1|]; [replace nx with (nx - 1 + 1) by lia|replace a with (a - 1 + 1) by lia]; apply T; lia.
Qed.
Lemma full_mask_2 {nx ny mask} : 0 < nx -> 0 < ny -> full_mask [nx; ny] mask -> full2 nx ny mask.
Proof.
  intros Hx Hy (m0 & mb & [L0 H0] & Lb & E). cbn [fold_right] in L0, H0. rewrite Nat.mul_1_r in L0, H0.
  destruct (extend_mask2_ok nx ny m0 (fun _ _ => true) Hx Hy L0 ltac:(intros i j Hi Hj; apply H0, pack_bound; assumption) mb ltac:(rewrite Lb; unfold extended_dimensions; cbn; lia)) as (mask' & E' & LM & v & HV & Hv).
  rewrite E in E'. injection E' as <-. split; [exact LM|]. intros i j Hi Hj. rewrite HV by assumption. f_equal. unfold off_corner.
  apply Bool.eq_iff_eq_true. rewrite (Hv i j Hi Hj), Bool.orb_true_iff, !Bool.andb_true_iff, !Nat.leb_le. unfold near2. split.
  - intros (k & l & Hk & Hl & _ & D). lia.
  - intros [D|D].
    + exists (i - 1), (Nat.min (j - 1) (ny - 1)). repeat split; lia.
    + exists (Nat.min (i - 1) (nx - 1)), (j - 1). repeat split; lia.
Qed.
Lemma full_mask_exists nX : (exists nx, nX = [nx] /\ 0 < nx) \/ (exists nx ny, nX = [nx; ny] /\ 0 < nx /\ 0 < ny) -> exists mask, full_mask nX mask.
Proof.
  intros [(nx & -> & Hn)|(nx & ny & -> & Hx & Hy)].
  - destruct (extend_mask1_ok nx (mkbuf nx (fun _ => Some true)) (fun _ => true) eq_refl (fun _ _ => eq_refl) (balloc (nx + 2)) Hn eq_refl) as (mask & E & _).
    exists mask, (mkbuf nx (fun _ => Some true)), (balloc (nx + 2)). split; [split; [cbn; lia|reflexivity]|]. split; [cbn; lia|exact E].
  - destruct (extend_mask2_ok nx ny (mkbuf (nx * ny) (fun _ => Some true)) (fun _ _ => true) Hx Hy eq_refl (fun _ _ _ _ => eq_refl) (balloc ((nx + 2) * (ny + 2))) eq_refl) as (mask & E & _).
    exists mask, (mkbuf (nx * ny) (fun _ => Some true)), (balloc ((nx + 2) * (ny + 2))). split; [split; [cbn; lia|reflexivity]|]. split; [unfold extended_dimensions; cbn; lia|exact E].
Qed.
Lemma full2_rd {nx ny mask i j} : full2 nx ny mask -> i < nx + 2 -> j < ny + 2 -> rd mask (i * (ny + 2) + j) = Ok (off_corner nx ny i j).
Proof. intros [L H] Hi Hj. apply rd_ok; [rewrite L; apply pack_bound; assumption|apply H; assumption]. Qed.
Lemma full2_init {nx ny mask} : full2 nx ny mask -> forall a, a < (nx + 2) * (ny + 2) -> exists b, rd mask a = Ok b.
Proof.
  intros H a Ha. rewrite (Nat.div_mod_eq a (ny + 2)), (Nat.mul_comm (ny + 2)). exists (off_corner nx ny (a / (ny + 2)) (a mod (ny + 2))).
  apply full2_rd; [exact H|apply Nat.div_lt_upper_bound; lia|apply Nat.mod_upper_bound; lia].
Qed.
Lemma off_x nx ny i j : 1 <= i <= nx -> off_corner nx ny i j = true.
Proof. intros [A B]. unfold off_corner. now rewrite (proj2 (Nat.leb_le _ _) A), (proj2 (Nat.leb_le _ _) B). Qed.
Lemma off_y nx ny i j : 1 <= j <= ny -> off_corner nx ny i j = true.
Proof. intros [A B]. unfold off_corner. rewrite (proj2 (Nat.leb_le _ _) A), (proj2 (Nat.leb_le _ _) B). apply Bool.orb_true_r. Qed.

Lemma finite_result {n w w2} {x x2 : nat -> vec} : holds n w x -> Ru num vec Rn w w2 -> (forall c, c < n -> bdat w2 c = Some (x2 c)) -> forall c, c < n -> x c = x2 c.
Proof. intros [_ H] [_ U] V c Hc. destruct (U _ _ (H c Hc)) as [y [E R]]. cbn in R. rewrite V in E by exact Hc. congruence. Qed.
(** the same cells, read as finite states *)
Definition plain (u : buf num) : buf vec := mkbuf (blen u) (fun a => match bdat u a with Some (Some v) => Some v | Some None => Some (fun _ => 0%R) | None => None end).
Lemma plain_ok u : Ru num vec Rn u (plain u).
Proof. split; [reflexivity|]. cbn [plain bdat]. intros a [v|] ->; eexists; (split; [reflexivity|]); [reflexivity|exact I]. Qed.
Lemma plain_holds {n u x} : holds n u x -> blen (plain u) = n /\ forall c, c < n -> bdat (plain u) c = Some (x c).
Proof. intros [L H]. split; [exact L|]. intros c Hc. cbn [plain bdat]. now rewrite H. Qed.

Section C18.
Variable o : options.
Variable ph : phys.
Variables NODES WGHTS : nat -> R.
Variables ENDVALS DERVALS : nat -> nat -> R.
Variables (FLUX : nat) (dt : R) (dX : nat -> R).
Variables (SIG : nat -> nat -> R) (LAMS LAMC EPS : R) (inv : stencil -> (nat -> R) -> nat -> R).
Variable prim : option ((num -> num) * (num -> num)).
(** the predictor in one cell: any function of the reconstruction in that cell *)
Variable Phi : nat -> list num -> res (option (nat -> option nodal)).
Variable wallf : nat -> nat -> num -> num.
Notation ader := (ader_with o ph NODES WGHTS ENDVALS DERVALS FLUX dt dX SIG LAMS LAMC EPS inv prim Phi).

(** Whenever the step returns, and returns numbers, the total of every conserved component (density, energy, momentum,
    and concentration if there is one) with a vanishing source is what it was. 1-D, any options. *)
Theorem ader_periodic_conserves_1d nx bt u ub0 ub mask x u' x' :
  runs o FLUX dX -> 1 <= N o <= nx -> bt 0 = PERIODIC -> bt 1 = PERIODIC -> holds nx u x -> full_mask [nx] mask ->
  blen ub0 = extended_dimensions [nx] (N o) -> boundaries num (N o) wallf u ub0 [nx] bt = Ok ub ->
  ader u ub mask [nx] = Ok u' -> holds nx u' x' ->
  forall k, conserved o k -> (forall Q, source ph Q k = 0%R) -> total1 nx x' k = total1 nx x k.
Proof.
  intros HR [N1 Nn] B0 B1 Hu Hfull Lb Eb Ea Hu' k Hk HS. destruct (full_mask_1 (nx := nx) ltac:(lia) Hfull) as [Lm Hm]. pose proof HR as [HV [HF [D0 D1]]]. destruct Hu as [Lu Du].
  destruct (periodic_1d num (N o) wallf u ub0 ub nx bt (fun i => Some (x i)) Nn ltac:(lia) B0 B1 Lu Du Lb Eb) as [Lub Wub].
  destruct (ader_is_fv o ph NODES WGHTS ENDVALS DERVALS FLUX dt dX HV HF D0 D1 SIG LAMS LAMC EPS inv prim Phi u ub mask [nx] u' (plain u) (or_introl eq_refl) Ea (plain_ok u))
    as [wh [qh [w2 [Ewh [Eqh [Ew2 U2]]]]]].
  cbn [length] in Ewh, Eqh. rewrite Nat.pow_1_r in Ewh, Eqh. replace (extended_dimensions [nx] 1) with (nx + 2) in Ewh, Eqh by (cbn; lia).
  destruct (weno_images_1d o SIG LAMS LAMC EPS inv prim N1 ub (fun i => Some (x i)) nx wh ltac:(lia) Lub Wub Ewh) as [Lwh Im].
  assert (SB : forall i, i < 2 -> blen qh = (nx + 2) * N o /\ forall t, t < N o -> bdat qh (i * N o + t) = bdat qh ((nx + i) * N o + t)).
  { intros i Hi. apply (same_blocks o FLUX HF Phi 1 (N o) (nx + 2) wh mask qh i (nx + i) N1 Eqh Lm); [lia|lia| |intros s Hs; apply Im; assumption].
    unfold rd. rewrite Lm, (proj2 (Nat.ltb_lt _ _)), (proj2 (Nat.ltb_lt _ _)), !Hm by lia. reflexivity. }
  pose proof (proj1 (SB 0 ltac:(lia))) as Lq.
  set (q := fun i t : nat => match bdat qh (i * N o + t) with Some b => unwrap b | None => zblk end).
  destruct (fv_conserves_1d o ph NODES WGHTS ENDVALS DERVALS true true FLUX dt dX nx (plain u) (strip qh) mask x q (fun _ => true) HR) as [w3 [x3 [E3 [L3 [V3 C3]]]]].
  { destruct (plain_holds (conj Lu Du)) as [P1 P2]. split; [exact P1|]. split; [exact P2|]. split.
    - intros i t Hi Ht. cbn [nt_of] in *. apply rd_ok; cbn [strip blen bdat]; [rewrite Lq; apply pack_bound; assumption|reflexivity].
    - intros i Hi. apply rd_ok; [lia|apply Hm; lia]. }
  rewrite Ew2 in E3. injection E3 as <-. pose proof (finite_result Hu' U2 V3) as X.
  transitivity (total1 nx x3 k); [apply rsum_ext; intros c Hc; now rewrite X|]. rewrite (C3 k Hk).
  rewrite (rsum_zero (nt_of (N o) true) (fun t => _ * rsum nx _)%R).
  2:{ intros t Ht. rewrite rsum_zero; [ring|]. intros c Hc. unfold on, sources1. apply rsum_zero. intros s Hs. unfold src. rewrite HS. ring. }
  rewrite rsum_zero; [ring|]. intros t Ht. cbn [andb]. unfold on. cbn [nt_of] in Ht.
  assert (Q : forall i, i < 2 -> q i t = q (nx + i) t) by (intros i Hi; unfold q; now rewrite (proj2 (SB i Hi) t Ht)).
  rewrite (Q 0), (Q 1) by lia. replace (nx + 0) with nx by lia. replace (nx + 1) with (S nx) by lia. ring.
Qed.

(** 2-D, when the corners are reconstructed like the other ghost cells (NO_CORNERS = false). Missing: the shipped
    NO_CORNERS = true, for which the claim is false. *)
Theorem ader_periodic_conserves_2d_partial nx ny bt u ub0 ub mask x u' x' :
  runs o FLUX dX -> NO_CORNERS o = false -> 1 <= N o <= nx -> N o <= ny -> (forall k, k < 4 -> bt k = PERIODIC) ->
  holds (nx * ny) u x -> full_mask [nx; ny] mask ->
  blen ub0 = extended_dimensions [nx; ny] (N o) -> boundaries num (N o) wallf u ub0 [nx; ny] bt = Ok ub ->
  ader u ub mask [nx; ny] = Ok u' -> holds (nx * ny) u' x' ->
  forall k, conserved o k -> (forall Q, source ph Q k = 0%R) ->
  total2 nx ny (fun a b => x' (a * ny + b)) k = total2 nx ny (fun a b => x (a * ny + b)) k.
Proof.
  intros HR NC [N1 Nn] Ny HB Hu Hfull Lb Eb Ea Hu' k Hk HS. pose proof (full_mask_2 (nx := nx) (ny := ny) ltac:(lia) ltac:(lia) Hfull) as FM. pose proof FM as [Lm Hm]. pose proof HR as [HV [HF [D0 D1]]]. destruct Hu as [Lu Du].
  destruct (periodic_2d num (N o) wallf u ub0 ub nx ny bt (fun i j => Some (x (i * ny + j))) Nn ltac:(lia) Ny ltac:(lia) HB Lu) as [Lub Wub]; [|exact Lb|exact Eb|].
  { intros i j Hi Hj. apply Du. apply pack_bound; assumption. }
  destruct (ader_is_fv o ph NODES WGHTS ENDVALS DERVALS FLUX dt dX HV HF D0 D1 SIG LAMS LAMC EPS inv prim Phi u ub mask [nx; ny] u' (plain u) (or_intror eq_refl) Ea (plain_ok u))
    as [wh [qh [w2 [Ewh [Eqh [Ew2 U2]]]]]].
  cbn [length] in Ewh, Eqh. replace (extended_dimensions [nx; ny] 1) with ((nx + 2) * (ny + 2)) in Ewh, Eqh by (unfold extended_dimensions; cbn; lia).
  replace (N o ^ 2) with (N o * N o) in Ewh, Eqh by (cbn; lia). rewrite Nat.mul_assoc in Ewh.
  destruct (weno_images_2d o SIG LAMS LAMC EPS inv prim N1 ub (fun i j => Some (x (i * ny + j))) nx ny wh NC ltac:(lia) ltac:(lia) Lub Wub Ewh) as [Lwh [ImX ImY]].
  assert (SB : forall a b, a < (nx + 2) * (ny + 2) -> b < (nx + 2) * (ny + 2) -> rd mask a = rd mask b -> (forall s, s < N o * N o -> rd wh (a * (N o * N o) + s) = rd wh (b * (N o * N o) + s)) ->
     blen qh = (nx + 2) * (ny + 2) * N o /\ forall t, t < N o -> bdat qh (a * N o + t) = bdat qh (b * N o + t)).
  { intros a b Ha Hb Hmab Hw. apply (same_blocks o FLUX HF Phi 2 (N o * N o) ((nx + 2) * (ny + 2)) wh mask qh a b N1 Eqh Lm Ha Hb); [exact Hmab|exact Hw]. }
  assert (Lq : blen qh = (nx + 2) * (ny + 2) * N o) by (destruct (SB 0 0) as [A _]; [lia|lia|reflexivity|reflexivity|exact A]).
  set (q := fun i j t : nat => match bdat qh ((i * (ny + 2) + j) * N o + t) with Some b => unwrap b | None => zblk end).
  destruct (fv_conserves_2d o ph NODES WGHTS ENDVALS DERVALS true true FLUX dt dX nx ny (plain u) (strip qh) mask (fun a b => x (a * ny + b)) q (off_corner nx ny) HR) as [w3 [x3 [E3 [L3 [V3 C3]]]]].
  { destruct (plain_holds (conj Lu Du)) as [P1 P2]. split; [exact P1|]. split; [intros a b Ha Hb; apply P2, pack_bound; assumption|]. split.
    - intros i j t Hi Hj Ht. cbn [nt_of] in *. apply rd_ok; cbn [strip blen bdat]; [rewrite Lq; do 2 (apply pack_bound; try assumption)|reflexivity].
    - intros i j Hi Hj. apply (full2_rd FM); assumption. }
  rewrite Ew2 in E3. injection E3 as <-.
  assert (X : forall a b, a < nx -> b < ny -> x' (a * ny + b) = x3 a b).
  { intros a b Ha Hb. assert (B : a * ny + b < nx * ny) by (apply pack_bound; assumption). destruct Hu' as [_ H']. destruct U2 as [_ U2].
    destruct (U2 _ _ (H' _ B)) as [y [Ey Ry]]. cbn in Ry. rewrite V3 in Ey by assumption. congruence. }
  transitivity (total2 nx ny x3 k); [apply rsum_ext; intros a Ha; apply rsum_ext; intros b Hb; now rewrite X|]. rewrite (C3 k Hk).
  rewrite (rsum_zero (nt_of (N o) true) (fun t => _ * rsum nx (fun a => rsum ny (fun b => on _ (sources2 _ _ _ _ _ _))))%R).
  2:{ intros t Ht. rewrite rsum_zero; [ring|]. intros a Ha. apply rsum_zero. intros b Hb. rewrite off_x by lia. unfold on, sources2. apply rsum_zero. intros s Hs. apply rsum_zero. intros s' Hs'. unfold src. rewrite HS. ring. }
  rewrite (rsum_zero (nt_of (N o) true) (fun t => _ / dX 0%nat * _)%R).
  2:{ intros t Ht. rewrite rsum_zero; [ring|]. intros b Hb. rewrite !off_y by lia. cbn [andb]. unfold on. cbn [nt_of] in Ht.
      assert (Q : forall i, i < 2 -> q i (S b) t = q (nx + i) (S b) t).
      { intros i Hi. unfold q. rewrite (proj2 (SB (i * (ny + 2) + S b) ((nx + i) * (ny + 2) + S b) ltac:(apply pack_bound; lia) ltac:(apply pack_bound; lia) ltac:(rewrite !(full2_rd FM) by lia; rewrite !off_y by lia; reflexivity) ltac:(intros s Hs; apply ImX; lia)) t Ht). reflexivity. }
      rewrite (Q 0), (Q 1) by lia. replace (nx + 0) with nx by lia. replace (nx + 1) with (S nx) by lia. ring. }
  rewrite rsum_zero; [ring|]. intros t Ht. rewrite rsum_zero; [ring|]. intros a Ha. rewrite !off_x by lia. cbn [andb]. unfold on. cbn [nt_of] in Ht.
  assert (Q : forall j, j < 2 -> q (S a) j t = q (S a) (ny + j) t).
  { intros j Hj. unfold q. rewrite (proj2 (SB (S a * (ny + 2) + j) (S a * (ny + 2) + (ny + j)) ltac:(apply pack_bound; lia) ltac:(apply pack_bound; lia) ltac:(rewrite !(full2_rd FM) by lia; rewrite !off_x by lia; reflexivity) ltac:(intros s Hs; apply ImY; lia)) t Ht). reflexivity. }
  rewrite (Q 0), (Q 1) by lia. replace (ny + 0) with ny by lia. replace (ny + 1) with (S ny) by lia. ring.
Qed.
End C18.
Print Assumptions ader_periodic_conserves_1d.
Print Assumptions ader_periodic_conserves_2d_partial.
