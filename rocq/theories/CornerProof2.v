(** The reconstruction of one dense cell in a 4 x 3 periodic grid, next to a corner. *)
From Coq Require Import Reals Lia Lra ZArith FunctionalExtensionality Psatz.
From Verif Require Import Base Options Sum PolyModel WenoModel WenoProof WenoProps DgSpec CornerProof.
Import List ListNotations.
Open Scope R_scope.

Section C.
Variables (nodes : list R) (bs : list poly) (w : nat -> R).
Hypothesis HN : length nodes = 2%nat.
Hypothesis HB : dg_basis nodes bs w.
Variables (inv : stencil -> (nat -> R) -> nat -> R) (SIG : nat -> nat -> R) (LAMS LAMC EPS : R).
Hypothesis HW : weno_setup nodes bs inv SIG LAMS LAMC EPS.
Variable e : vec.
Notation xi s := (nth s nodes 0).
Notation swp := (sweep 2 SIG LAMS LAMC EPS inv).

(** the state with density r; the other components are those of [e] *)
Definition dens (r : R) : vec := fun k => if Nat.eqb k 0 then r else e k.
Lemma dens_eta v : (forall k, k <> 0%nat -> v k = e k) -> v = dens (v 0%nat).
Proof. intros H. apply functional_extensionality. intros k. unfold dens. destruct (Nat.eqb_spec k 0) as [->|D]; [reflexivity|apply H, D]. Qed.

Lemma node_range j : (j < 2)%nat -> - (1 / 2) <= xi j - 1 / 2 <= 1 / 2.
Proof. destruct (two_nodes nodes bs w HN HB) as (h & Hh & X0 & X1 & _). intros Hj. assert (Rabs h <= 1 / 2) by (apply Rabs_le; nra). destruct j as [|[|j]]; [rewrite X0|rewrite X1|lia]; nra. Qed.

Lemma swp_dens u f nx gap i : (forall k, (k < 3)%nat -> u (i + k)%nat = Some (dens (f k))) -> two_sel (selected 2 (Z.of_nat nx) (Z.of_nat gap) (Z.of_nat i)) ->
  exists th, 0 <= th <= 1 /\ let sel := selected 2 (Z.of_nat nx) (Z.of_nat gap) (Z.of_nat i) in
    (sel = [sL] -> th = 1) /\ (sel = [sR] -> th = 0) /\ (sel = [sL; sR] -> 0 < th < 1) /\
    forall j, (j < 2)%nat -> swp u nx gap i j = Some (dens (f 1%nat + (th * (f 1%nat - f 0%nat) + (1 - th) * (f 2%nat - f 1%nat)) * (xi j - 1 / 2))).
Proof.
  intros Hu Hs. set (sel := selected _ _ _ _) in *.
  set (data := fun k => val (blk u 3 i k)).
  assert (DA : forall k, (k < 3)%nat -> blk u 3 i k = Some (dens (f k))) by (intros [|[|[|k]]] Hk; [apply Hu; lia|apply Hu; lia|apply Hu; lia|lia]).
  assert (DV : forall k, (k < 3)%nat -> data k = dens (f k)) by (intros k Hk; unfold data; rewrite DA by exact Hk; reflexivity).
  destruct (comb_two nodes bs HN inv SIG LAMS LAMC EPS HW data sel 0 Hs) as (th & T & T1 & T2 & T3 & F).
  exists th. split; [exact T|]. cbv zeta. split; [exact T1|]. split; [exact T2|]. split; [exact T3|]. intros j Hj.
  assert (CF : swp u nx gap i j = Some (fun v => WenoModel.combine 2 SIG LAMS LAMC EPS inv data sel j v)).
  { unfold sweep, coeffs. fold sel. replace (_ && _)%bool with true; [reflexivity|]. symmetry. apply andb_true_intro. split.
    - destruct Hs as [-> | [-> | ->]]; reflexivity.
    - apply forallb_forall. intros s Hin. apply forallb_forall. intros k Hk. apply in_seq in Hk. change (2 * 2 - 1)%nat with 3%nat. rewrite DA; [reflexivity|].
      assert (s = sL \/ s = sR) as [-> | ->] by (destruct Hs as [-> | [-> | ->]]; cbn in Hin; intuition congruence); cbn; lia. }
  rewrite CF. f_equal. rewrite (dens_eta (fun v => _)).
  - cbn beta. rewrite F by exact Hj. rewrite !DV by lia. reflexivity.
  - intros v Hv. cbn beta. destruct (comb_two nodes bs HN inv SIG LAMS LAMC EPS HW data sel v Hs) as (th' & _ & _ & _ & _ & F'). rewrite F' by exact Hj. rewrite !DV by lia. unfold dens. rewrite (proj2 (Nat.eqb_neq v 0) Hv). ring.
Qed.

Lemma swp_same u u' nx gap nx' gap' i i' s : (forall k, (k < 3)%nat -> u (i + k)%nat = u' (i' + k)%nat) ->
  selected 2 (Z.of_nat nx) (Z.of_nat gap) (Z.of_nat i) = selected 2 (Z.of_nat nx') (Z.of_nat gap') (Z.of_nat i') -> swp u nx gap i s = swp u' nx' gap' i' s.
Proof.
  intros H E. unfold sweep, coeffs. rewrite E. replace (blk u (2 * 2 - 1) i) with (blk u' (2 * 2 - 1) i'); [reflexivity|].
  unfold blk. cbn [Nat.mul Nat.sub Nat.add seq map]. rewrite !H by lia. reflexivity.
Qed.

(** values within [a, b] are reconstructed within half a width around *)
Lemma swp_range u f nx gap i a b j : (forall k, (k < 3)%nat -> u (i + k)%nat = Some (dens (f k))) -> (forall k, (k < 3)%nat -> a <= f k <= b) ->
  two_sel (selected 2 (Z.of_nat nx) (Z.of_nat gap) (Z.of_nat i)) -> (j < 2)%nat ->
  exists r, swp u nx gap i j = Some (dens r) /\ a - (b - a) / 2 <= r <= b + (b - a) / 2.
Proof.
  intros Hu Hf Hs Hj. destruct (swp_dens u f nx gap i Hu Hs) as (th & T & _ & _ & _ & F). eexists. split; [apply F, Hj|].
  assert (X := node_range j Hj). assert (A0 := Hf 0%nat ltac:(lia)). assert (A1 := Hf 1%nat ltac:(lia)). assert (A2 := Hf 2%nat ltac:(lia)).
  set (sl := th * _ + _). assert (S1 : - (b - a) <= sl <= b - a) by (unfold sl; nra). clearbody sl. set (y := xi j - 1 / 2) in *. clearbody y. nra.
Qed.
Lemma swp_const u nx gap i j : (forall k, (k < 3)%nat -> u (i + k)%nat = Some (dens 1)) -> two_sel (selected 2 (Z.of_nat nx) (Z.of_nat gap) (Z.of_nat i)) -> (j < 2)%nat ->
  swp u nx gap i j = Some (dens 1).
Proof.
  intros Hu Hs Hj. destruct (swp_dens u (fun _ => 1) nx gap i Hu Hs) as (th & _ & _ & _ & _ & F). rewrite F by exact Hj. do 2 f_equal. ring.
Qed.

(** ** the grid: 4 x 3 cells, two layers of ghost cells, density z in the cell (2, 2) and 1 elsewhere *)
Variable z : R.
Hypothesis Hz : 9 / 10 <= z < 1.
Definition rho0 (i j : nat) : R := if (Nat.eqb i 2 && Nat.eqb j 2)%bool then z else 1.
Definition rho_ub (a : nat) : R := if ((Nat.eqb (a / 7) 0 || Nat.eqb (a / 7) 4) && (Nat.eqb (a mod 7) 1 || Nat.eqb (a mod 7) 4))%bool then z else 1.
Definition Uc (a : nat) : num := Some (dens (rho_ub a)).
Notation ux := (ux_val 2 SIG LAMS LAMC EPS inv true Uc 6 5).
Notation wh := (wh_val 2 SIG LAMS LAMC EPS inv true Uc 6 5).

Lemma sel_x i gap : (i < 6)%nat -> gap = 0%nat \/ gap = 2%nat -> two_sel (selected 2 (Z.of_nat 6) (Z.of_nat gap) (Z.of_nat i)).
Proof. intros Hi [-> | ->]; unfold two_sel; do 6 (destruct i as [|i]; [cbn; auto|]); lia. Qed.
Lemma sel_y j gap : (j < 5)%nat -> gap = 0%nat \/ gap = 1%nat -> two_sel (selected 2 (Z.of_nat 5) (Z.of_nat gap) (Z.of_nat j)).
Proof. intros Hi [-> | ->]; unfold two_sel; do 5 (destruct j as [|j]; [cbn; auto|]); lia. Qed.
Lemma gapx_cases j : gapx 2 true 5 j = 0%nat \/ gapx 2 true 5 j = 2%nat.
Proof. unfold gapx. destruct (_ && _)%bool; auto. Qed.
Lemma gapy_cases i : gapy true 6 i = 0%nat \/ gapy true 6 i = 1%nat.
Proof. unfold gapy. destruct (_ && _)%bool; auto. Qed.

Lemma ux_range i j ii : (i < 6)%nat -> (ii < 2)%nat -> exists r, ux i j ii = Some (dens r) /\ z - (1 - z) / 2 <= r <= 1 + (1 - z) / 2.
Proof.
  intros Hi Hii. unfold ux_val. apply (swp_range _ (fun k => rho_ub (j + (5 + 2 * (2 - 1)) * (i + k))) _ _ _ z 1); [reflexivity| |apply sel_x; [exact Hi|apply gapx_cases]|exact Hii].
  intros k _. unfold rho_ub. destruct (_ && _)%bool; lra.
Qed.
Lemma wh_range i j ii jj : (i < 6)%nat -> (j < 5)%nat -> (ii < 2)%nat -> (jj < 2)%nat -> exists r, wh i j ii jj = Some (dens r) /\ 1 / 2 <= r <= 3 / 2.
Proof.
  intros Hi Hj Hii Hjj. unfold wh_val.
  destruct (swp_range (fun r => ux i r ii) (fun k => match ux i (j + k) ii with Some v => v 0%nat | None => 0 end) 5 (gapy true 6 i) j (z - (1 - z) / 2) (1 + (1 - z) / 2) jj) as (r & E & B).
  - intros k Hk. destruct (ux_range i (j + k) ii Hi Hii) as (r & -> & _). reflexivity.
  - intros k Hk. destruct (ux_range i (j + k) ii Hi Hii) as (r & -> & B). exact B.
  - apply sel_y; [exact Hj|apply gapy_cases].
  - exact Hjj.
  - exists r. split; [exact E|]. lra.
Qed.

Lemma ux_one i j ii : (forall k, (k < 3)%nat -> rho_ub (j + 7 * (i + k)) = 1) -> (i < 6)%nat -> (ii < 2)%nat -> ux i j ii = Some (dens 1).
Proof.
  intros H Hi Hii. unfold ux_val. apply swp_const; [|apply sel_x; [exact Hi|apply gapx_cases]|exact Hii].
  intros k Hk. unfold Uc. change (5 + 2 * (2 - 1))%nat with 7%nat. now rewrite H.
Qed.
Ltac three := let k := fresh in let H := fresh in intros k H; destruct k as [|[|[|k]]]; [reflexivity|reflexivity|reflexivity|lia].
(** away from the dense cell, and the ghost rows next to the corners *)
Lemma ux_mid i j ii : (i < 6)%nat -> (ii < 2)%nat -> j = 2%nat \/ j = 3%nat \/ j = 5%nat -> ux i j ii = Some (dens 1).
Proof. intros Hi Hii Hj. apply ux_one; [|exact Hi|exact Hii]. do 6 (destruct i as [|i]; [destruct Hj as [-> | [-> | ->]]; three|]). lia. Qed.
Lemma ux_ghost i ii : (ii < 2)%nat -> i = 1%nat \/ i = 5%nat -> ux i 1 ii = Some (dens 1).
Proof. intros Hii [-> | ->]; (apply ux_one; [three|lia|exact Hii]). Qed.
Lemma ux_01 ii : (ii < 2)%nat -> ux 0 1 ii = Some (dens 1).
Proof.
  intros Hii. unfold ux_val. destruct (swp_dens (fun r => Uc (1 + (5 + 2 * (2 - 1)) * r)) (fun k => rho_ub (1 + 7 * k)) 6 (gapx 2 true 5 1) 0) as (th & _ & _ & T & _ & F); [reflexivity|apply sel_x; [lia|apply gapx_cases]|].
  rewrite F by exact Hii. rewrite (T eq_refl). replace (rho_ub (1 + 7 * 2)) with 1 by reflexivity. replace (rho_ub (1 + 7 * 1)) with 1 by reflexivity. do 2 f_equal. ring.
Qed.
Lemma ux_41 ii : (ii < 2)%nat -> ux 4 1 ii = Some (dens (1 + (1 - z) * (xi ii - 1 / 2))).
Proof.
  intros Hii. unfold ux_val. destruct (swp_dens (fun r => Uc (1 + (5 + 2 * (2 - 1)) * r)) (fun k => rho_ub (1 + 7 * (4 + k))) 6 (gapx 2 true 5 1) 4) as (th & _ & T & _ & _ & F); [reflexivity|apply sel_x; [lia|apply gapx_cases]|].
  rewrite F by exact Hii. rewrite (T eq_refl). replace (rho_ub (1 + 7 * (4 + 1))) with 1 by reflexivity. replace (rho_ub (1 + 7 * (4 + 0))) with z by reflexivity. do 2 f_equal. ring.
Qed.
(** the images of a cell in the interior rows *)
Lemma ux_image i j ii : i = 0%nat \/ i = 1%nat -> (2 <= j < 5)%nat -> ux i j ii = ux (4 + i) j ii.
Proof.
  intros Hi Hj. unfold ux_val. assert (G : gapx 2 true 5 j = 0%nat) by (do 5 (destruct j as [|j]; [reflexivity || lia|]); lia). rewrite G. apply swp_same.
  - intros k Hk. unfold Uc. do 2 f_equal. destruct Hi as [-> | ->]; do 5 (destruct j as [|j]; [destruct k as [|[|[|k]]]; (lia || reflexivity)|]); lia.
  - destruct Hi as [-> | ->]; reflexivity.
Qed.

Lemma wh_first i ii jj : (ii < 2)%nat -> (jj < 2)%nat -> i = 0%nat \/ i = 1%nat \/ i = 5%nat -> wh i 1 ii jj = Some (dens 1).
Proof.
  intros Hii Hjj Hi. unfold wh_val. apply swp_const; [|apply sel_y; [lia|apply gapy_cases]|exact Hjj].
  intros k Hk. assert (I6 : (i < 6)%nat) by lia. destruct k as [|[|[|k]]]; [|apply ux_mid; auto|apply ux_mid; auto|lia].
  cbn [Nat.add]. destruct Hi as [-> | Hi]; [apply ux_01, Hii|apply ux_ghost; [exact Hii|exact Hi]].
Qed.
Lemma wh_corner ii : (ii < 2)%nat -> exists th, 0 < th < 1 /\ forall jj, (jj < 2)%nat -> wh 4 1 ii jj = Some (dens (1 - th * (1 - z) * (xi ii - 1 / 2) * (xi jj - 1 / 2))).
Proof.
  intros Hii. unfold wh_val.
  destruct (swp_dens (fun r => ux 4 r ii) (fun k => match k with O => 1 + (1 - z) * (xi ii - 1 / 2) | _ => 1 end) 5 (gapy true 6 4) 1) as (th & _ & _ & _ & T & F).
  - intros k Hk. destruct k as [|[|[|k]]]; [apply ux_41, Hii|apply ux_mid; auto; lia|apply ux_mid; auto; lia|lia].
  - apply sel_y; [lia|apply gapy_cases].
  - exists th. split; [apply T; reflexivity|]. intros jj Hjj. rewrite F by exact Hjj. do 2 f_equal. ring.
Qed.
Lemma wh_image i j ii jj : (ii < 2)%nat -> i = 0%nat \/ i = 1%nat -> j = 2%nat \/ j = 3%nat -> wh i j ii jj = wh (4 + i) j ii jj.
Proof.
  intros Hii Hi Hj. unfold wh_val. apply swp_same.
  - intros k Hk. assert (C : (2 <= j + k < 5 \/ j + k = 5)%nat) by lia. destruct C as [C | C]; [apply ux_image; assumption|].
    rewrite C. rewrite !ux_mid by (auto; lia). reflexivity.
  - destruct Hi as [-> | ->]; destruct Hj as [-> | ->]; reflexivity.
Qed.
End C.
