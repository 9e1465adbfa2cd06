(** Sweeps over finite data: averages and exactness, in one and two dimensions. *)
From Coq Require Import Reals Lra List Lia ZArith.
From Coquelicot Require Import Coquelicot.
From Verif Require Import Base Options Sum PolyModel PolyProof LegendreProof2 WenoModel WenoSpec WenoProof WenoProof2 WenoProof3.
Import List ListNotations.
Open Scope R_scope.
Local Notation combine := WenoModel.combine.

Lemma rint_pow n (c : nat -> R) a b : is_RInt (pol1 n c) a b (rsum n (fun k => c k * RInt (fun y => y ^ k) a b)).
Proof.
  unfold pol1. apply (is_RInt_rsum n (fun k y => c k * y ^ k)). intros k Hk. apply is_RInt_Rscal.
  apply (@RInt_correct R_CompleteNormedModule). apply (@ex_RInt_continuous R_CompleteNormedModule). intros z _.
  apply (@ex_derive_continuous R_AbsRing R_NormedModule (fun y => y ^ k)). auto_derive. auto.
Qed.
Lemma pol1_list n q x : evaluate (map q (seq 0 n)) x = pol1 n q x.
Proof. unfold evaluate, pol1. rewrite map_length, seq_length. apply rsum_ext. intros i Hi. now rewrite co_map_seq. Qed.

Section S.
Variables (nodes : list R) (bs : list poly).
Hypothesis DN : distinct nodes.
Hypothesis HB : basis_polys nodes = Ok bs.
Let N := length nodes.
Hypothesis N1 : (1 <= N)%nat.
Let basis (j : nat) := nth j bs [].
Variable inv : stencil -> (nat -> R) -> nat -> R.
Hypothesis SV : solver nodes bs inv.
Variables (SIG : nat -> nat -> R) (LAMS LAMC EPS : R).
Hypothesis Lpos : 0 < LAMS /\ 0 < LAMC.
Hypothesis Qpos : forall w, rsum N (fun i => rsum N (fun j => w i * SIG i j * w j)) + EPS <> 0.
Notation sweep := (sweep N SIG LAMS LAMC EPS inv).
Let psi (j : nat) := evaluate (basis j).

Definition cc (u : nat -> num) (nx gap i : nat) (s : nat) : vec := fun v =>
  combine N SIG LAMS LAMC EPS inv (fun k => val (blk u (2 * N - 1) i k)) (selected N (Z.of_nat nx) (Z.of_nat gap) (Z.of_nat i)) s v.

Lemma sweep_fin u f nx gap i s : (forall k, (k < 2 * N - 1)%nat -> u (i + k)%nat = Some (f (i + k)%nat)) ->
  selected N (Z.of_nat nx) (Z.of_nat gap) (Z.of_nat i) <> [] ->
  sweep u nx gap i s = Some (cc u nx gap i s).
Proof.
  intros Hu Hs. unfold WenoProof.sweep, coeffs, cc. set (sel := selected _ _ _ _) in *.
  replace (match sel with [] => false | _ :: _ => true end) with true by (destruct sel; congruence). cbn [andb].
  replace (forallb (fun s0 => forallb (fun k => fin (blk u (2 * N - 1) i (off N s0 + k))) (seq 0 N)) sel) with true; [reflexivity|].
  symmetry. apply forallb_forall. intros st _. apply forallb_forall. intros k Hk. apply in_seq in Hk.
  pose proof (off_le N N1 st). rewrite blk_in by lia. rewrite Hu by lia. reflexivity.
Qed.

Lemma sweep_avg u f nx gap i : (forall k, (k < 2 * N - 1)%nat -> u (i + k)%nat = Some (f (i + k)%nat)) ->
  selected N (Z.of_nat nx) (Z.of_nat gap) (Z.of_nat i) <> [] ->
  forall v, is_RInt (recon1 N psi (cc u nx gap i) v) 0 1 (f (i + (N - 1))%nat v).
Proof.
  intros Hu Hs v.
  pose proof (combine_avg nodes bs N1 inv SV SIG LAMS LAMC EPS Lpos Qpos (fun k => val (blk u (2 * N - 1) i k)) _ v Hs) as H.
  cbn beta in H. fold N in H. rewrite blk_in in H by lia. rewrite Hu in H by lia. exact H.
Qed.

Lemma sweep_exact u f nx gap i (q : nat -> poly) : (forall k, (k < 2 * N - 1)%nat -> u (i + k)%nat = Some (f (i + k)%nat)) ->
  selected N (Z.of_nat nx) (Z.of_nat gap) (Z.of_nat i) <> [] ->
  forall v, (length (q v) <= N)%nat ->
  (forall k, (k < 2 * N - 1)%nat -> is_RInt (evaluate (q v)) (INR (i + k)) (INR (i + k) + 1) (f (i + k)%nat v)) ->
  forall s, (s < N)%nat -> cc u nx gap i s v = evaluate (q v) (INR (i + (N - 1)) + nth s nodes 0).
Proof.
  intros Hu Hs v Lq Hq s Hsn.
  pose proof (combine_exact nodes bs DN HB N1 inv SV SIG LAMS LAMC EPS Lpos Qpos (fun k => val (blk u (2 * N - 1) i k)) _
    (pshift (INR (i + (N - 1))) (q v)) v Hs) as H. fold N in H.
  rewrite pshift_len in H. specialize (H Lq). rewrite Rplus_comm. rewrite <- pshift_eval. apply H; [|exact Hsn].
  intros k Hk. rewrite blk_in by exact Hk. rewrite Hu by exact Hk. cbn [val].
  apply (is_RInt_fext (fun t => evaluate (q v) (t + INR (i + (N - 1)))) _ _ _ (f (i + k)%nat v)); [intros x; symmetry; apply pshift_eval|reflexivity|].
  pose proof (@is_RInt_comp_lin R_NormedModule (evaluate (q v)) 1 (INR (i + (N - 1))) (INR k - INR (N - 1)) (INR k - INR (N - 1) + 1) (f (i + k)%nat v)) as C.
  specialize (Hq k Hk).
  replace (1 * (INR k - INR (N - 1)) + INR (i + (N - 1))) with (INR (i + k)) in C by (rewrite !plus_INR; ring).
  replace (1 * (INR k - INR (N - 1) + 1) + INR (i + (N - 1))) with (INR (i + k) + 1) in C by (rewrite !plus_INR; ring).
  specialize (C Hq). eapply (is_RInt_fext _ _ _ _ _ _); [| |exact C]; [|reflexivity].
  intros x. cbn. unfold scal; cbn; unfold mult; cbn. rewrite !Rmult_1_l. reflexivity.
Qed.

(** a polynomial given by its values at the nodes, translated *)
Lemma recon1_nodes (c : nat -> vec) v (q : poly) z t : (length q <= N)%nat ->
  (forall s, (s < N)%nat -> c s v = evaluate q (z + nth s nodes 0)) -> recon1 N psi c v t = evaluate q (z + t).
Proof.
  intros Lq H. unfold recon1. rewrite (Rplus_comm z t), <- pshift_eval.
  rewrite (basis_interp nodes bs DN HB (pshift z q) t) by (rewrite pshift_len; exact Lq).
  apply rsum_ext. intros s Hs. rewrite H by exact Hs. rewrite pshift_eval. rewrite (Rplus_comm (nth s nodes 0)). reflexivity.
Qed.

(** ** two dimensions *)
Section Two.
Variables (nc : bool) (f : nat -> vec) (u : nat -> num) (nx ny : nat).
Let W := (ny + 2 * (N - 1))%nat.
Hypothesis Hu : forall p r, (p < nx + 2 * (N - 1))%nat -> (r < W)%nat -> u (p * W + r)%nat = Some (f (p * W + r)%nat).
Hypothesis EX : nc = true -> enough N nx N.
Hypothesis EY : nc = true -> enough N ny 1.

Lemma gap_x j : enough N nx (gapx N nc ny j).
Proof. unfold gapx. destruct (_ && _)%bool eqn:E; [apply EX; destruct nc; [reflexivity|discriminate]|unfold enough; lia]. Qed.
Lemma gap_y i : enough N ny (gapy nc nx i).
Proof. unfold gapy. destruct (_ && _)%bool eqn:E; [apply EY; destruct nc; [reflexivity|discriminate]|unfold enough; lia]. Qed.

Definition cx (i j ii : nat) : vec := cc (fun r => u (j + W * r)%nat) nx (gapx N nc ny j) i ii.
Lemma ux_fin i j ii : (i < nx)%nat -> (j < W)%nat -> ux_val N SIG LAMS LAMC EPS inv nc u nx ny i j ii = Some (cx i j ii).
Proof.
  intros Hi Hj. unfold ux_val. fold W. rewrite (sweep_fin _ (fun r => f (j + W * r)%nat)); [reflexivity| |].
  - intros k Hk. rewrite (Nat.mul_comm W), (Nat.add_comm j). apply Hu; lia.
  - apply selected_ok; [exact Hi|apply gap_x].
Qed.
Definition cxy (i j ii jj : nat) : vec := cc (fun r => ux_val N SIG LAMS LAMC EPS inv nc u nx ny i r ii) ny (gapy nc nx i) j jj.
Lemma wh_fin i j ii jj : (i < nx)%nat -> (j < ny)%nat -> wh_val N SIG LAMS LAMC EPS inv nc u nx ny i j ii jj = Some (cxy i j ii jj).
Proof.
  intros Hi Hj. unfold wh_val. rewrite (sweep_fin _ (fun r => cx i r ii)); [reflexivity| |].
  - intros k Hk. apply ux_fin; unfold W; lia.
  - apply selected_ok; [exact Hj|apply gap_y].
Qed.

Lemma avg2 i j v : (i < nx)%nat -> (j < ny)%nat ->
  is_RInt (fun x => RInt (fun y => recon2 N psi (cxy i j) v x y) 0 1) 0 1 (f ((i + (N - 1)) * W + (j + (N - 1)))%nat v).
Proof.
  intros Hi Hj.
  assert (Y : forall ii, is_RInt (recon1 N psi (cxy i j ii) v) 0 1 (cx i (j + (N - 1)) ii v)).
  { intros ii. apply (sweep_avg _ (fun r => cx i r ii)).
    - intros k Hk. apply ux_fin; unfold W; lia.
    - apply selected_ok; [exact Hj|apply gap_y]. }
  assert (X : is_RInt (recon1 N psi (cx i (j + (N - 1))) v) 0 1 (f ((i + (N - 1)) * W + (j + (N - 1)))%nat v)).
  { replace ((i + (N - 1)) * W + (j + (N - 1)))%nat with ((j + (N - 1)) + W * (i + (N - 1)))%nat by ring.
    apply (sweep_avg _ (fun r => f (j + (N - 1) + W * r)%nat)).
    - intros k Hk. rewrite (Nat.mul_comm W), (Nat.add_comm (j + _)). apply Hu; unfold W; lia.
    - apply selected_ok; [exact Hi|apply gap_x]. }
  eapply is_RInt_fext; [|reflexivity|exact X]. intros x. symmetry. apply is_RInt_unique.
  unfold recon2, recon1 at 1. apply (is_RInt_rsum N (fun s y => rsum N (fun t => cxy i j s t v * psi s x * psi t y))). intros s Hs.
  eapply is_RInt_fext; [| |apply (is_RInt_Rscal _ _ _ (psi s x) _ (Y s))]; [|ring].
  intros y. unfold recon1. rewrite <- rsum_scal. apply rsum_ext. intros; ring.
Qed.

Lemma exact2 (q : nat -> nat -> nat -> R) i j v : (i < nx)%nat -> (j < ny)%nat ->
  (forall p r, (p < nx + 2 * (N - 1))%nat -> (r < W)%nat -> f (p * W + r)%nat v = cell2 (pol2 N (q v)) p r) ->
  forall x y, recon2 N psi (cxy i j) v x y = pol2 N (q v) (INR (i + (N - 1)) + x) (INR (j + (N - 1)) + y).
Proof.
  intros Hi Hj Hq.
  set (J := fun b r => RInt (fun y => y ^ b) (INR r) (INR r + 1)).
  set (row := fun r => map (fun a => rsum N (fun b => q v a b * J b r)) (seq 0 N)).
  set (col := fun X => map (fun b => rsum N (fun a => q v a b * X ^ a)) (seq 0 N)).
  assert (Lr : forall r, length (row r) = N) by (intros; unfold row; now rewrite map_length, seq_length).
  assert (Lc : forall X, length (col X) = N) by (intros; unfold col; now rewrite map_length, seq_length).
  assert (In : forall x r, RInt (fun y => pol2 N (q v) x y) (INR r) (INR r + 1) = evaluate (row r) x).
  { intros x r. apply is_RInt_unique. unfold row. rewrite pol1_list. unfold pol1, pol2.
    apply (is_RInt_rsum N (fun a y => rsum N (fun b => q v a b * x ^ a * y ^ b))). intros a Ha.
    eapply is_RInt_fext; [| |apply (is_RInt_Rscal _ _ _ (x ^ a) _ (rint_pow N (q v a) (INR r) (INR r + 1)))].
    - intros y. unfold pol1. rewrite <- rsum_scal. apply rsum_ext. intros; ring.
    - unfold J. ring. }
  assert (D : forall p r, (p < nx + 2 * (N - 1))%nat -> (r < W)%nat -> is_RInt (evaluate (row r)) (INR p) (INR p + 1) (f (p * W + r)%nat v)).
  { intros p r Hp Hr. rewrite Hq by assumption. unfold cell2. rewrite (RInt_ext _ (evaluate (row r))) by (intros; apply In).
    rewrite (is_RInt_unique _ _ _ _ (integrate_RInt (row r) (INR p) (INR p + 1))). apply integrate_RInt. }
  (* first sweep *)
  assert (X1 : forall r ii, (r < W)%nat -> (ii < N)%nat -> cx i r ii v = evaluate (row r) (INR (i + (N - 1)) + nth ii nodes 0)).
  { intros r ii Hr Hii. unfold cx. apply (sweep_exact _ (fun p => f (r + W * p)%nat) nx _ i (fun _ => row r)).
    - intros k Hk. rewrite (Nat.mul_comm W), (Nat.add_comm r). apply Hu; lia.
    - apply selected_ok; [exact Hi|apply gap_x].
    - rewrite Lr. lia.
    - intros k Hk. rewrite (Nat.mul_comm W), (Nat.add_comm r). apply D; lia.
    - exact Hii. }
  assert (RC : forall r X, is_RInt (evaluate (col X)) (INR r) (INR r + 1) (evaluate (row r) X)).
  { intros r X. unfold col, row. rewrite pol1_list. eapply is_RInt_fext; [intros y; symmetry; apply pol1_list| |apply rint_pow].
    unfold pol1. rewrite (rsum_ext N _ (fun b => rsum N (fun a => q v a b * X ^ a * J b r))) by (intros; rewrite rsum_scal_r; reflexivity).
    rewrite rsum_swap. apply rsum_ext. intros a Ha. rewrite <- rsum_scal_r. apply rsum_ext. intros; ring. }
  assert (X2 : forall ii jj, (ii < N)%nat -> (jj < N)%nat -> cxy i j ii jj v = evaluate (col (INR (i + (N - 1)) + nth ii nodes 0)) (INR (j + (N - 1)) + nth jj nodes 0)).
  { intros ii jj Hii Hjj. unfold cxy. apply (sweep_exact _ (fun r => cx i r ii) ny _ j (fun _ => col (INR (i + (N - 1)) + nth ii nodes 0))).
    - intros k Hk. apply ux_fin; unfold W; lia.
    - apply selected_ok; [exact Hj|apply gap_y].
    - rewrite Lc. lia.
    - intros k Hk. rewrite X1 by (unfold W; lia). apply RC.
    - exact Hjj. }
  intros x y. set (X0 := INR (i + (N - 1))) in *. set (Y0 := INR (j + (N - 1))) in *.
  set (cy := map (fun a => rsum N (fun b => q v a b * (Y0 + y) ^ b)) (seq 0 N)).
  assert (CR : forall X, evaluate (col X) (Y0 + y) = evaluate cy X).
  { intros X. unfold col, cy. rewrite !pol1_list. unfold pol1.
    rewrite (rsum_ext N _ (fun b => rsum N (fun a => q v a b * X ^ a * (Y0 + y) ^ b))) by (intros; rewrite rsum_scal_r; reflexivity).
    rewrite rsum_swap. apply rsum_ext. intros a Ha. rewrite <- rsum_scal_r. apply rsum_ext. intros; ring. }
  transitivity (rsum N (fun s => evaluate cy (X0 + nth s nodes 0) * psi s x)).
  - unfold recon2. apply rsum_ext. intros s Hs.
    rewrite (rsum_ext N _ (fun t => psi s x * (cxy i j s t v * psi t y))) by (intros; ring).
    rewrite rsum_scal. rewrite (Rmult_comm (evaluate cy _)). f_equal. rewrite <- CR.
    apply (recon1_nodes (cxy i j s) v (col (X0 + nth s nodes 0)) Y0 y); [rewrite Lc; lia|]. intros t Ht. apply X2; assumption.
  - assert (Lcy : length cy = N) by (unfold cy; now rewrite map_length, seq_length).
    transitivity (evaluate cy (X0 + x)).
    + apply (recon1_nodes (fun s _ => evaluate cy (X0 + nth s nodes 0)) v cy X0 x); [lia|]. reflexivity.
    + unfold cy. rewrite pol1_list. unfold pol1, pol2. apply rsum_ext. intros a Ha. rewrite <- rsum_scal_r. apply rsum_ext. intros; ring.
Qed.
End Two.
End S.
