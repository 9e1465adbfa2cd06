(** C88: the ghost cells of a one-dimensional run with two materials and one interface. *)
From Coq Require Import Reals Lia Lra ZArith FunctionalExtensionality.
From Verif Require Import Base Options Mat3 PhysModel UtilsModel UtilsProof FmmModel FmmProof FmmProof7 LevelSetModel FillModel FmmSpec FillProof3 FillProof8 FillProps MFillSpec MFillProof MFillProof2.
Import List ListNotations.
Open Scope nat_scope.

Lemma index_one o q : LSET o = 1 -> get_material_index o q = if Rle_dec 0 (q (V o - 1)) then 1 else 0.
Proof. intros L. unfold get_material_index. rewrite L. cbn. destruct (Rle_dec _ _); reflexivity. Qed.
Lemma put_head_is o q s : put_head o q s = with_material o q s.
Proof.
  apply functional_extensionality. intros k. unfold put_head, setseg, with_material. cbn [Nat.leb andb Nat.add]. destruct (Nat.ltb k _); [f_equal; lia|reflexivity].
Qed.
Lemma far_is left j a : far j a left = beyond left j a.
Proof. unfold far, beyond, half. destruct left; destruct (Rlt_dec a (1 / 2)); lia. Qed.

Lemma Ok_inj {A} (x y : A) : Ok x = Ok y -> x = y.
Proof. intros H. injection H as H. exact H. Qed.

Section Two.
Variable o : options.
Variable star : vec -> vec -> matpar -> matpar -> R -> (nat -> R) -> res vec.
Variables (M0 M1 : matpar) (dt : R) (nx j : nat) (h : R) (rising : bool) (u : nat -> vec).
Notation lo := (V o - 1).
Notation phi := (fun i => u i lo).
Notation a := (crossing_fraction j phi).
Notation MPs := [M0; M1].
Notation dX := (fun d => nth d [h] 1%R).
Hypothesis HL : LSET o = 1.
Hypothesis HN : 1 <= Options.N o.
Hypothesis Hnx : 3 <= nx.
Hypothesis Hh : (0 < h)%R.
Hypothesis Hmax : (h * (INR nx + 1) < maxDouble)%R.
Hypothesis HI : one_interface nx j rising phi.
Hypothesis Heps : forall i, i < nx -> (phi i <= 0 \/ doubleEpsilon < phi i)%R.
(** the state with its level set redistanced *)
Definition redistanced (i : nat) : vec := if Nat.ltb i nx then upd (u i) lo (signed_distance j rising h a i) else u i.
Let tau : R := if rising then 1%R else (-1)%R.

Lemma sides : (forall i, i <= j -> (tau * phi i < 0)%R) /\ (forall i, j < i < nx -> (0 < tau * phi i)%R).
Proof.
  destruct HI as [Hj H]. unfold tau. split; intros i Hi; specialize (H i ltac:(lia)); destruct (Nat.leb_spec i j); try lia; destruct rising; cbn [Bool.eqb] in H; lra.
Qed.
Lemma tau_or : tau = 1%R \/ tau = (-1)%R.
Proof. unfold tau. destruct rising; auto. Qed.
Lemma fraction_range : (0 < a < 1)%R.
Proof. destruct sides as [S1 S2]. exact (frac_range nx j tau phi (proj1 HI) tau_or S1 S2). Qed.
Lemma redistance : renormalize_levelsets o u [h] [nx] = Ok redistanced.
Proof.
  destruct sides as [S1 S2]. unfold renormalize_levelsets. rewrite HL. cbn [for_loop]. rewrite Nat.add_0_r.
  destruct (line_distance nx j h tau phi (proj1 HI) Hh tau_or S1 S2 Heps Hmax) as [b [-> [L H]]]. cbn [bind].
  rewrite (set_col_ok (size_ [nx]) lo b (signed_distance j rising h a)); [cbn [bind]; f_equal; apply functional_extensionality; intros i; unfold redistanced; cbn [size_ fold_right]; rewrite Nat.mul_1_r; reflexivity|].
  cbn [size_ fold_right]. rewrite Nat.mul_1_r. split; [exact L|]. intros i Hi. specialize (H i Hi). apply rd_inv in H. exact (proj2 H).
Qed.
Lemma redistanced_level i : i < nx -> redistanced i lo = signed_distance j rising h a i.
Proof. intros Hi. unfold redistanced. destruct (Nat.ltb_spec i nx); [|lia]. apply upd_same. Qed.
Lemma redistanced_index mat i : mat < 2 -> i < nx -> get_material_index o (redistanced i) = mat <-> outside (on_left rising mat) j i = 0.
Proof.
  intros Hm Hi. rewrite index_one by exact HL. rewrite redistanced_level by exact Hi. pose proof fraction_range as FR. unfold signed_distance, outside, on_left.
  destruct (Nat.le_gt_cases i j) as [L|L].
  - assert (X : ((INR i - (INR j + a)) * h < 0)%R) by (pose proof (le_INR i j L); nra).
    destruct (Rle_dec _ _) as [Q|Q]; destruct rising; destruct (Nat.eqb_spec mat 0); cbn [negb]; try lia; exfalso; nra.
  - assert (X : (0 < (INR i - (INR j + a)) * h)%R) by (pose proof (le_INR (j + 1) i ltac:(lia)) as Y; rewrite plus_INR in Y; cbn in Y; nra).
    destruct (Rle_dec _ _) as [Q|Q]; destruct rising; destruct (Nat.eqb_spec mat 0); cbn [negb]; try lia; exfalso; nra.
Qed.
Lemma level_of mat : exists p, material_indicator o redistanced mat 2 [h] [nx] = Ok p /\ forall i, i < nx -> p i = (sg (on_left rising mat) * (INR i - (INR j + a)) * h)%R.
Proof.
  unfold material_indicator. rewrite HL. cbn [Nat.eqb Nat.ltb Nat.leb]. eexists. split; [reflexivity|]. intros i Hi. unfold indicator. cbn [Nat.ltb Nat.leb]. rewrite HL, redistanced_level by exact Hi.
  unfold signed_distance, sg, on_left. destruct (Nat.eqb mat 0); destruct rising; cbn [negb]; ring.
Qed.
(** what material [mat] gets *)
Definition gets (mat : nat) (Mp Mo : matpar) (g : buf vec) (mk : nat -> bool) : Prop :=
  let left := on_left rising mat in
  exists s, star (redistanced (last_cell left j)) (redistanced (beyond left j a)) Mp Mo dt (fun _ => if left then 1%R else (-1)%R) = Ok s /\
    stores nx g (fun i => if (Nat.leb 1 (outside left j i) && Nat.leb (outside left j i) (10 * Options.N o))%bool then with_material o (redistanced i) s else redistanced i) /\
    forall i, i < nx -> mk i = Nat.leb (outside left j i) 1.
Hypothesis Hstar : forall q q' m m' n, exists s, star q q' m m' dt n = Ok s.
Lemma other_index mat : mat < 2 -> beyond (on_left rising mat) j a < nx -> get_material_index o (redistanced (beyond (on_left rising mat) j a)) = 1 - mat.
Proof.
  intros Hm HB. apply redistanced_index; [lia|exact HB|]. destruct HI as [Hj _]. unfold beyond, outside, on_left.
  destruct mat as [|[|]]; [| |lia]; destruct rising; destruct (Rlt_dec _ _); cbn [Nat.eqb Nat.sub negb]; lia.
Qed.
Lemma material_filled mat Mp Mo : mat < 2 -> nth_error MPs mat = Some Mp -> nth_error MPs (1 - mat) = Some Mo ->
  (beyond (on_left rising mat) j a < nx -> exists g mk, fill_material o star dX [nx] MPs dt [h] nx 2 mat redistanced = Ok (g, mk) /\ gets mat Mp Mo g mk) /\
  (nx <= beyond (on_left rising mat) j a -> exists w, fill_material o star dX [nx] MPs dt [h] nx 2 mat redistanced = UB w).
Proof.
  intros Hm EM EO. destruct (level_of mat) as [p [Ep Hp]]. pose proof (proj1 HI) as Hj.
  assert (HT : forall i, i < nx -> get_material_index o (redistanced i) = mat <-> depth j (on_left rising mat) i = 0) by (intros i Hi; apply redistanced_index; assumption).
  split; intros HB; rewrite <- far_is in HB.
  - destruct (Hstar (redistanced (own j (on_left rising mat))) (redistanced (far j a (on_left rising mat))) Mp Mo (fun _ => sg (on_left rising mat))) as [s Es].
    destruct (side_filled o star dX [h] MPs dt nx j h a (on_left rising mat) 2 mat redistanced p Hnx Hj Hh eq_refl fraction_range Hp HT Ep Mp Mo s HN HB EM) as [g [mk [E [S1 S2]]]]; [|exact Es|].
    { rewrite far_is in *. rewrite (other_index mat Hm HB). exact EO. }
    exists g, mk. split; [exact E|]. exists s. rewrite far_is in Es. split; [exact Es|]. split; [|exact S2]. destruct S1 as [S0 S1]. split; [exact S0|]. intros i Hi. rewrite S1 by exact Hi. rewrite put_head_is. reflexivity.
  - apply (side_overruns o star dX [h] MPs dt nx j h a (on_left rising mat) 2 mat redistanced p Hnx Hj Hh eq_refl fraction_range Hp HT Ep HB).
Qed.
(** what each material has afterwards: a void keeps its grid and has an empty mask *)
Definition has (mat : nat) (Mp Mo : matpar) (g0 g : buf vec) (mk : nat -> bool) : Prop :=
  if mp_void Mp then g = g0 /\ forall i, mk i = false else gets mat Mp Mo g mk.
(** C88. With room for the far probe of the materials that are not a void, ghost filling returns: the level set is the signed distance to the interpolated interface, a material keeps its own
    cells, and the 10 N cells outside it get the star state of its last cell and of the far cell *)
Theorem ghost_cells_1d g0 g1 k0 k1 :
  (forall mat Mp, nth_error MPs mat = Some Mp -> mp_void Mp = false -> beyond (on_left rising mat) j a < nx) ->
  exists g0' g1' k0' k1', fill_ghost_cells o star dX [nx] MPs dt [h] nx u [g0; g1] [k0; k1] = Ok (redistanced, [g0'; g1'], [k0'; k1']) /\
    has 0 M0 M1 g0 g0' k0' /\ has 1 M1 M0 g1 g1' k1'.
Proof.
  intros HB. unfold fill_ghost_cells. rewrite redistance. cbn [bind length for_loop]. unfold UtilsModel.get. cbn [nth_error bind]. unfold has.
  destruct (mp_void M0) eqn:V0.
  - cbn [put length Nat.ltb Nat.leb firstn skipn app bind nth_error]. destruct (mp_void M1) eqn:V1.
    + cbn [put length Nat.ltb Nat.leb firstn skipn app bind]. eexists _, _, _, _. split; [reflexivity|]. repeat split.
    + destruct (proj1 (material_filled 1 M1 M0 ltac:(lia) eq_refl eq_refl) (HB 1 M1 eq_refl V1)) as [g [mk [-> G]]]. cbn [put length Nat.ltb Nat.leb firstn skipn app bind]. eexists _, _, _, _. split; [reflexivity|]. repeat split. exact G.
  - destruct (proj1 (material_filled 0 M0 M1 ltac:(lia) eq_refl eq_refl) (HB 0 M0 eq_refl V0)) as [g [mk [-> G]]]. cbn [put length Nat.ltb Nat.leb firstn skipn app bind nth_error]. destruct (mp_void M1) eqn:V1.
    + cbn [put length Nat.ltb Nat.leb firstn skipn app bind]. eexists _, _, _, _. split; [reflexivity|]. repeat split. exact G.
    + destruct (proj1 (material_filled 1 M1 M0 ltac:(lia) eq_refl eq_refl) (HB 1 M1 eq_refl V1)) as [g' [mk' [-> G']]]. cbn [put length Nat.ltb Nat.leb firstn skipn app bind]. eexists _, _, _, _. split; [reflexivity|]. split; assumption.
Qed.
(** Without that room (the interface is in the half cell before the last centre, and the material on the left is not a void) a cell past the end of the array is read. *)
Theorem ghost_cells_1d_overrun g0 g1 k0 k1 mat Mp : nth_error MPs mat = Some Mp -> mp_void Mp = false -> nx <= beyond (on_left rising mat) j a ->
  exists w, fill_ghost_cells o star dX [nx] MPs dt [h] nx u [g0; g1] [k0; k1] = UB w.
Proof.
  intros EM VM HB. unfold fill_ghost_cells. rewrite redistance. cbn [bind length for_loop]. unfold UtilsModel.get. cbn [nth_error bind].
  assert (OTHER : forall k, k < 2 -> k <> mat -> beyond (on_left rising k) j a < nx).
  { intros k Hk N. assert (mat < 2) by (destruct mat as [|[|[|]]]; cbn in EM; try discriminate; lia). destruct HI as [Hj _]. revert HB. unfold beyond, on_left. destruct mat as [|[|]]; destruct k as [|[|]]; try lia;
    destruct rising; destruct (Rlt_dec _ _); cbn [Nat.eqb negb]; lia. }
  destruct mat as [|[|mat]]; [| |destruct mat; discriminate EM].
  - cbn in EM. assert (X : Mp = M0) by congruence. subst Mp. rewrite VM. destruct (proj2 (material_filled 0 M0 M1 ltac:(lia) eq_refl eq_refl) HB) as [w ->]. cbn [bind]. eauto.
  - cbn in EM. assert (X : Mp = M1) by congruence. subst Mp. destruct (mp_void M0) eqn:V0.
    + cbn [put length Nat.ltb Nat.leb firstn skipn app bind nth_error]. rewrite VM. destruct (proj2 (material_filled 1 M1 M0 ltac:(lia) eq_refl eq_refl) HB) as [w ->]. cbn [bind]. eauto.
    + destruct (proj1 (material_filled 0 M0 M1 ltac:(lia) eq_refl eq_refl) (OTHER 0 ltac:(lia) ltac:(lia))) as [g [mk [-> _]]]. cbn [put length Nat.ltb Nat.leb firstn skipn app bind nth_error]. rewrite VM.
      destruct (proj2 (material_filled 1 M1 M0 ltac:(lia) eq_refl eq_refl) HB) as [w ->]. cbn [bind]. eauto.
Qed.
End Two.
Print Assumptions ghost_cells_1d.
Print Assumptions ghost_cells_1d_overrun.

(** ** Cases *)
Definition one_level : options := mkopt true false false 1 true false 2.
(** component 0 is the number of the cell, the last one a level set that vanishes between cells 1 and 2 *)
Definition ramp (i : nat) : vec := fun k => if Nat.eqb k 14 then (INR i - 3 / 2)%R else INR i.
Definition sum_star (q q' : vec) (_ _ : matpar) (_ : R) (_ : nat -> R) : res vec := Ok (fun k => q k + q' k)%R.
Lemma ramp_fraction : crossing_fraction 1 (fun i => ramp i 14) = (1 / 2)%R.
Proof.
  unfold crossing_fraction, ramp. cbn [Nat.eqb Nat.add INR]. rewrite (Rabs_left (1 - 3 / 2)), (Rabs_right (1 + 1 - 3 / 2)) by lra. field.
Qed.
Lemma ramp_interface nx : 2 < nx -> one_interface nx 1 true (fun i => ramp i 14).
Proof.
  intros H. split; [lia|]. intros i Hi. unfold ramp. cbn [Nat.eqb]. destruct (Nat.leb_spec i 1) as [L|L]; cbn [Bool.eqb].
  - pose proof (le_INR i 1 L) as X. cbn in X. lra.
  - pose proof (le_INR 2 i L) as X. cbn in X. lra.
Qed.
Lemma ramp_eps i : (ramp i 14%nat <= 0 \/ doubleEpsilon < ramp i 14%nat)%R.
Proof.
  unfold ramp. cbn [Nat.eqb]. destruct (Nat.le_gt_cases i 1) as [L|L]; [left; pose proof (le_INR i 1 L) as X; cbn in X; lra|right].
  pose proof (le_INR 2 i L) as X. cbn in X. assert (doubleEpsilon < 1 / 4)%R by (unfold doubleEpsilon; lra). lra.
Qed.
(** the third cell of the material on the left is what the star state of cells 1 and 3 is, and the first one that of cells 2 and 1 for the material on the right *)
Example ghost_cells_case par0 par1 dt g0 g1 k0 k1 : exists u' g0' g1' k0' k1',
  fill_ghost_cells one_level sum_star (fun d => nth d [1%R] 1%R) [4] [mkmatpar par0 false; mkmatpar par1 false] dt [1%R] 4 ramp [g0; g1] [k0; k1] = Ok (u', [g0'; g1'], [k0'; k1']) /\
  (exists q, rd g0' 2 = Ok q /\ q 0 = 4%R) /\ (exists q, rd g1' 0 = Ok q /\ q 0 = 3%R) /\ (exists q, rd g0' 1 = Ok q /\ q 0 = 1%R) /\ k0' 2 = true /\ k0' 3 = false.
Proof.
  destruct (ghost_cells_1d one_level sum_star (mkmatpar par0 false) (mkmatpar par1 false) dt 4 1 1 true ramp eq_refl) with (g0 := g0) (g1 := g1) (k0 := k0) (k1 := k1) as [a [b [c [d [E [H0 H1]]]]]].
  - cbn. lia.
  - lia.
  - lra.
  - unfold maxDouble. cbn [INR]. lra.
  - apply ramp_interface. lia.
  - intros i _. apply ramp_eps.
  - intros. eexists. reflexivity.
  - intros mat Mp _ _. change (V one_level - 1) with 14. rewrite ramp_fraction. unfold beyond. destruct (Rlt_dec (1 / 2) (1 / 2)); destruct (on_left true mat); lia.
  - eexists _, _, _, _, _. split; [exact E|]. unfold has in H0, H1. cbn [mp_void] in H0, H1. destruct H0 as [s [Es [[_ S0] K0]]]. destruct H1 as [s1 [Es1 [[_ S1] _]]].
    assert (B : beyond true 1 (1 / 2) = 3 /\ beyond false 1 (1 / 2) = 1) by (unfold beyond; destruct (Rlt_dec (1 / 2) (1 / 2)); [lra|split; lia]). destruct B as [B1 B2].
    change (V one_level - 1) with 14 in *. change (on_left true 0) with true in *. change (on_left true 1) with false in *. rewrite ramp_fraction in *. rewrite B1 in Es. rewrite B2 in Es1.
    assert (X0 : s 0 = (redistanced one_level 4%nat 1%nat 1 true ramp 1%nat 0%nat + redistanced one_level 4%nat 1%nat 1 true ramp 3%nat 0%nat)%R) by (unfold sum_star in Es; apply Ok_inj in Es; rewrite <- Es; reflexivity).
    assert (X1 : s1 0 = (redistanced one_level 4%nat 1%nat 1 true ramp 2%nat 0%nat + redistanced one_level 4%nat 1%nat 1 true ramp 1%nat 0%nat)%R) by (unfold sum_star in Es1; apply Ok_inj in Es1; rewrite <- Es1; reflexivity).
    clear Es Es1 E. cbn in X0, X1.
    split; [|split; [|split; [|split]]].
    + rewrite S0 by lia. eexists. split; [reflexivity|]. cbn. lra.
    + rewrite S1 by lia. eexists. split; [reflexivity|]. cbn. lra.
    + rewrite S0 by lia. eexists. split; [reflexivity|]. cbn. lra.
    + rewrite K0 by lia. reflexivity.
    + rewrite K0 by lia. reflexivity.
Qed.
(** the same state on three cells *)
Theorem ghost_cells_edge_refuted : exists (u : nat -> vec), one_interface 3 1 true (fun i => u i 14) /\
  forall star par0 M1 dt g0 g1 k0 k1, (forall q q' m m' n, exists s, star q q' m m' dt n = Ok s) ->
  exists w, fill_ghost_cells one_level star (fun d => nth d [1%R] 1%R) [3] [mkmatpar par0 false; M1] dt [1%R] 3 u [g0; g1] [k0; k1] = UB w.
Proof.
  exists ramp. split; [apply ramp_interface; lia|]. intros star par0 M1 dt g0 g1 k0 k1 Hs.
  apply (ghost_cells_1d_overrun one_level star (mkmatpar par0 false) M1 dt 3 1 1 true ramp) with (mat := 0) (Mp := mkmatpar par0 false); try reflexivity; try assumption; try (cbn; lia); try lra.
  - unfold maxDouble. cbn [INR]. lra.
  - apply ramp_interface. lia.
  - intros i _. apply ramp_eps.
  - change (V one_level - 1) with 14. rewrite ramp_fraction. unfold beyond, on_left. cbn [Nat.eqb]. destruct (Rlt_dec (1 / 2) (1 / 2)); [lra|lia].
Qed.
Print Assumptions ghost_cells_edge_refuted.
