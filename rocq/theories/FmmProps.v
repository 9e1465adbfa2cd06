(** Properties C05-C08, C65 (fast marching, level-set renormalisation). *)
From Verif Require Import Base Options FmmModel FmmSpec LevelSetModel FmmProof6 FmmProof7.
Open Scope nat_scope.

(** C05. For every grid of at most 12 dimensions, every spacing and every level set the marcher terminates,
    without undefined behaviour, heap overrun or exception, and every cell of the result is initialised. *)
Theorem fmm_safe : forall (shape : list nat) (dX : list R) (phi : nat -> R), List.length shape <= 12 ->
  exists b, distance shape dX phi = Ok b /\ blen b = cells shape /\
    (forall c, inside shape c -> exists v, rd b (flat shape c) = Ok v).
Proof. exact fmm_safe_lemma. Qed.
Print Assumptions fmm_safe.

(** More dimensions overflow the fixed member arrays. *)
Theorem fmm_dim_limit : forall shape dX phi, 12 < List.length shape -> is_ub (distance shape dX phi).
Proof.
  intros shape dX phi H. unfold distance, dim_, is_ub. apply Nat.ltb_lt in H. rewrite H. eexists. reflexivity.
Qed.
Print Assumptions fmm_dim_limit.

(** C06, with the exact hypotheses: an interface exists, no level-set value lies in (0, epsilon], one or two
    dimensions, positive spacings. Missing against the full claim: see the two refutations below. *)
Theorem fmm_sign_partial :
  forall (shape : list nat) (dX : list R) (phi : nat -> R) (Hmax : R),
  let P c := phi (flat shape c) in
  List.length shape <= 2 ->
  (forall d, d < List.length shape -> (0 < nth d dX 0 <= Hmax)%R) ->
  (forall c, inside shape c -> (P c <= 0 \/ doubleEpsilon < P c)%R) ->
  (Hmax * (INR (cells shape) + 1) < maxDouble)%R -> (0 < Hmax)%R ->
  has_interface shape P ->
  exists b D, distance shape dX phi = Ok b /\
    (forall c, inside shape c -> rd b (flat shape c) = Ok (D c) /\ same_side (P c) (D c)).
Proof.
  intros shape dX phi Hmax P A B C D E F.
  destruct (fmm_signed_lemma shape dX phi Hmax A B C D E F) as [b [X [Y Z]]].
  exists b, X. split; [exact Y|]. intros c Hc. destruct (Z c Hc) as [Z1 [Z2 _]]. auto.
Qed.
Print Assumptions fmm_sign_partial.

(** C06 is false at full strength, even with an interface: a positive cell gets a negative distance. *)
Theorem fmm_sign_refuted :
  exists shape dX phi b v, has_interface shape (fun c => phi (flat shape c)) /\
    distance shape dX phi = Ok b /\ rd b (flat shape [2]) = Ok v /\ (0 < phi (flat shape [2%nat]))%R /\ (v < 0)%R.
Proof.
  destruct fmm_flip_lemma as [b [E R2]]. exists [3], [1%R], phi_flip, b, (-1/2)%R.
  split; [|split; [exact E|split; [exact R2|split; [cbn; apply eps1|lra]]]].
  right. exists 0, [0], [1]. split; [cbn; lia|]. split; [cbn; lia|]. split; [left; constructor|cbn; lra].
Qed.
Print Assumptions fmm_sign_refuted.

(** Without an interface the error code is dropped and the distance is zero everywhere: the sign of every cell
    is lost. *)
Theorem fmm_no_interface_zero :
  forall (shape : list nat) (dX : list R) (phi : nat -> R), List.length shape <= 2 ->
  (forall d, d < List.length shape -> (0 < nth d dX 0)%R) ->
  ~ has_interface shape (fun c => phi (flat shape c)) ->
  exists b, distance shape dX phi = Ok b /\ forall c, inside shape c -> rd b (flat shape c) = Ok 0%R.
Proof. exact fmm_single_sign. Qed.
Print Assumptions fmm_no_interface_zero.

(** C07, same hypotheses: every cell is reached and its distance is at most (number of cells) x (largest
    spacing), hence below the largest double; interface cells get the least crossing distance. *)
Theorem fmm_all_cells_partial :
  forall (shape : list nat) (dX : list R) (phi : nat -> R) (Hmax : R),
  let P c := phi (flat shape c) in
  List.length shape <= 2 ->
  (forall d, d < List.length shape -> (0 < nth d dX 0 <= Hmax)%R) ->
  (forall c, inside shape c -> (P c <= 0 \/ doubleEpsilon < P c)%R) ->
  (Hmax * (INR (cells shape) + 1) < maxDouble)%R -> (0 < Hmax)%R ->
  has_interface shape P ->
  exists b D, distance shape dX phi = Ok b /\
    (forall c, inside shape c -> rd b (flat shape c) = Ok (D c) /\
      (Rabs (D c) <= Hmax * INR (cells shape))%R /\ (Rabs (D c) < maxDouble)%R /\
      (on_interface shape P c -> initial_value shape P dX c (D c))).
Proof.
  intros shape dX phi Hmax P A B C D E F.
  destruct (fmm_signed_lemma shape dX phi Hmax A B C D E F) as [b [X [Y Z]]].
  exists b, X. split; [exact Y|]. intros c Hc. destruct (Z c Hc) as [Z1 [Z2 [Z3 Z4]]].
  repeat split; auto. lra. all: apply Z4; assumption.
Qed.
Print Assumptions fmm_all_cells_partial.

(** C07 is false at full strength: with a tiny positive value a cell is skipped and left at the largest double. *)
Theorem fmm_all_cells_refuted :
  exists shape dX phi b, has_interface shape (fun c => phi (flat shape c)) /\
    distance shape dX phi = Ok b /\ rd b (flat shape [2]) = Ok maxDouble.
Proof.
  destruct fmm_skip_lemma as [b [E R2]]. exists [3], [1%R], phi_skip, b.
  split; [|split; [exact E|exact R2]]. left. exists [0]. split; cbn; [lia|reflexivity].
Qed.
Print Assumptions fmm_all_cells_refuted.

(** C65. On a grid with equal spacings the result is a solution of the first-order upwind eikonal equation:
    interface cells carry their crossing distance, all other cells satisfy |grad D| = 1 in the upwind sense. *)
Theorem fmm_eikonal :
  forall (shape : list nat) (dX : list R) (phi : nat -> R) (h : R),
  let P c := phi (flat shape c) in
  List.length shape <= 2 ->
  (forall d, d < List.length shape -> nth d dX 0%R = h) ->
  (forall c, inside shape c -> (P c <= 0 \/ doubleEpsilon < P c)%R) ->
  (h * (INR (cells shape) + 1) < maxDouble)%R -> (0 < h)%R ->
  has_interface shape P ->
  exists b D, distance shape dX phi = Ok b /\
    (forall c, inside shape c -> rd b (flat shape c) = Ok (D c) /\ same_side (P c) (D c) /\
      (on_interface shape P c -> initial_value shape P dX c (D c)) /\
      (~ on_interface shape P c -> eikonal_at shape h D c)).
Proof. exact fmm_eikonal_lemma. Qed.
Print Assumptions fmm_eikonal.

(** witness for the hypotheses of the four theorems above: a 3 x 2 grid with an oblique interface *)
Definition phi_ex (i : nat) : R := (INR i - 5/2)%R.
Example fmm_hyps : let P c := phi_ex (flat [3; 2] c) in
  (forall d, d < List.length [3; 2] -> (0 < nth d [1%R; 1%R] 0 <= 1)%R) /\
  (forall d, d < List.length [3; 2] -> nth d [1%R; 1%R] 0%R = 1%R) /\
  (forall c, inside [3; 2] c -> (P c <= 0 \/ doubleEpsilon < P c)%R) /\
  (1 * (INR (cells [3%nat; 2%nat]) + 1) < maxDouble)%R /\ has_interface [3; 2] P /\ ~ on_interface [3; 2] P [0; 0].
Proof.
  intros P. split; [|split; [|split; [|split; [|split]]]].
  - intros [|[|d]] Hd; cbn in *; lra || lia.
  - intros [|[|d]] Hd; cbn in *; lra || lia.
  - intros c Hc. unfold P, phi_ex. destruct (le_lt_dec (flat [3; 2] c) 2) as [L|L].
    + left. apply le_INR in L. replace (INR 2) with 2%R in L by (cbn; lra). lra.
    + right. apply le_INR in L. replace (INR 3) with 3%R in L by (cbn; lra). unfold doubleEpsilon.
      apply Rlt_le_trans with (1 / 2)%R; [|lra].
      replace (1 / 2)%R with (/ 2)%R by lra. apply Rinv_lt_contravar.
      * apply Rmult_lt_0_compat; [lra|apply pow_lt; lra].
      * replace 2%R with (2 ^ 1)%R at 1 by ring. apply Rlt_pow; [lra|lia].
  - pose proof big2. cbn. lra.
  - right. exists 0, [0; 1], [1; 1]. split; [cbn; lia|]. split; [cbn; lia|]. split; [left; constructor|].
    unfold P, phi_ex. cbn. lra.
  - intros [Z|[d [c' [Hc' [N L]]]]].
    + unfold P, phi_ex in Z. cbn in Z. lra.
    + assert (C : c' = [1; 0] \/ c' = [0; 1]).
      { clear L. destruct N as [N|N];
        repeat match goal with H : next _ _ _ |- _ => inversion H; clear H; subst end; auto. }
      destruct C as [-> | ->]; unfold P, phi_ex in L; cbn in L; lra.
Qed.

(** C08, with the hypotheses of C06 on each level set: material index and all other components are kept. *)
Theorem renormalize_keeps_material_partial :
  forall (o : options) (shape : list nat) (dX : list R) (Hmax : R) (u : nat -> vec),
  let lev k c := u (flat shape c) k in
  List.length shape <= 2 ->
  (forall d, d < List.length shape -> (0 < nth d dX 0 <= Hmax)%R) ->
  (Hmax * (INR (cells shape) + 1) < maxDouble)%R -> (0 < Hmax)%R ->
  (forall k c, V o - LSET o <= k < V o -> inside shape c -> (lev k c <= 0 \/ doubleEpsilon < lev k c)%R) ->
  (forall k, V o - LSET o <= k < V o -> has_interface shape (lev k)) ->
  exists u', renormalize_levelsets o u dX shape = Ok u' /\
    forall c, inside shape c ->
      get_material_index o (u' (flat shape c)) = get_material_index o (u (flat shape c)) /\
      (forall k, k < V o - LSET o -> u' (flat shape c) k = u (flat shape c) k).
Proof.
  intros o shape dX Hmax u lev A B C D E F.
  destruct (renormalize_lemma o shape dX Hmax A B C D u E F) as [u' [X Y]].
  exists u'. split; [exact X|]. intros c Hc. destruct (Y c Hc) as [Y1 Y2].
  split; [apply (material_same_side o shape A); exact Y2|exact Y1].
Qed.
Print Assumptions renormalize_keeps_material_partial.

(** C08 is false at full strength: when a level set has no interface on the grid (a material left the domain)
    every cell changes from material 0 to material LSET. *)
Theorem renormalize_material_refuted :
  exists (o : options) shape dX u u', LSET o = 1 /\ renormalize_levelsets o u dX shape = Ok u' /\
    forall c, inside shape c ->
      get_material_index o (u (flat shape c)) = 0 /\ get_material_index o (u' (flat shape c)) = 1.
Proof.
  pose (o := mkopt true false false 1 true false 2). pose (u := fun _ _ : nat => (-1)%R).
  destruct (fmm_single_sign [3] [1%R] (fun c => u c 14)) as [b [E Z]]; [cbn; lia| | |].
  - intros [|d] Hd; cbn in *; [lra|lia].
  - intros [[c [_ X]]|[d [c [c' [_ [_ [_ X]]]]]]]; unfold u in X; lra.
  - assert (Zi : forall i, i < 3 -> rd b i = Ok 0%R).
    { intros i Hi. replace i with (flat [3] [i]) by (cbn; lia). apply Z. cbn. lia. }
    pose (u' := fun i => if Nat.ltb i 3 then Base.upd (u i) 14 0%R else u i).
    exists o, [3], [1%R], u, u'. split; [reflexivity|]. split.
    + unfold renormalize_levelsets. cbn [LSET o for_loop]. change (V o - 1 + 0) with 14. rewrite E. cbn [bind].
      rewrite (set_col_ok 3 14 b (fun _ => 0%R)); [reflexivity|].
      split.
      * destruct (fmm_safe_lemma [3] [1%R] (fun c => u c 14) ltac:(cbn; lia)) as [b' [E' [L _]]].
        rewrite E in E'. injection E' as <-. exact L.
      * intros i Hi. apply rd_inv. apply Zi. exact Hi.
    + intros c Hc. pose proof (flat_lt [3] c Hc) as L. change (size_ [3]) with 3 in L. split.
      * unfold get_material_index, u. cbn. destruct (Rle_dec 0 (-1)); [lra|reflexivity].
      * unfold get_material_index, u'. apply Nat.ltb_lt in L. rewrite L. cbn.
        destruct (Rle_dec 0 0); [reflexivity|lra].
Qed.
Print Assumptions renormalize_material_refuted.

(** witness for C08's hypotheses *)
Example renormalize_hyps :
  let o := mkopt true false false 1 true false 2 in
  let u := fun i k : nat => if Nat.eqb k 14 then phi_ex i else 0%R in
  (forall k c, V o - LSET o <= k < V o -> inside [3; 2] c ->
     (u (flat [3%nat; 2%nat] c) k <= 0 \/ doubleEpsilon < u (flat [3%nat; 2%nat] c) k)%R) /\
  (forall k, V o - LSET o <= k < V o -> has_interface [3; 2] (fun c => u (flat [3; 2] c) k)).
Proof.
  destruct fmm_hyps as [_ [_ [A [_ [B _]]]]]. split.
  - intros k c Hk Hc. change (V _ - LSET _) with 14 in Hk. change (V _) with 15 in Hk.
    assert (k = 14) by lia. subst k. apply A. exact Hc.
  - intros k Hk. change (V _ - LSET _) with 14 in Hk. change (V _) with 15 in Hk.
    assert (k = 14) by lia. subst k. exact B.
Qed.
