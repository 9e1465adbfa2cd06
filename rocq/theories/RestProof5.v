(** Where the density cannot vanish: at second order (the order the code is shipped with), if it does not vary by a factor of 3 on a line, or 9/7 on a plane. *)
From Coq Require Import Reals Lia Lra ZArith.
From Coquelicot Require Import Coquelicot.
From Verif Require Import Base Options Sum PolyModel PolyProof LegendreSpec EqModel WenoModel WenoProof2 WenoProof3 DgModel DgSpec FvBody GridModel GridSpec GridProof Ader3Props RefSpec RefProof RestSpec RestProof RestProof2 RestProof3.
From Verif Require WenoProps WenoProof.
Import List ListNotations.
Open Scope R_scope.

(** ** The two nodes of Gauss *)
Lemma gauss_two nodes bs w : dg_basis nodes bs w -> length nodes = 2%nat -> nth 0 nodes 0 + nth 1 nodes 0 = 1 /\ nth 0 nodes 0 * nth 1 nodes 0 = 1 / 6.
Proof.
  intros (_ & _ & _ & Q) L. rewrite L in Q. set (x0 := nth 0 nodes 0) in *. set (x1 := nth 1 nodes 0) in *.
  assert (A : forall p, (length p <= 4)%nat -> evaluate (integrate p) 1 - evaluate (integrate p) 0 = w 0%nat * evaluate p x0 + w 1%nat * evaluate p x1).
  { intros p Hp. pose proof (rint_unique _ _ _ _ _ (Q p Hp) (integrate_RInt p 0 1)) as U. rewrite <- U. unfold quad. cbn [rsum]. fold x0 x1. ring. }
  pose proof (A [x0 * x1; - (x0 + x1); 1] ltac:(cbn; lia)) as A1. pose proof (A [0; x0 * x1; - (x0 + x1); 1] ltac:(cbn; lia)) as A2. cbn in A1, A2.
  assert (B1 : 1 / 3 - (x0 + x1) / 2 + x0 * x1 = 0) by lra || (field_simplify in A1; nra).
  assert (B2 : 1 / 4 - (x0 + x1) / 3 + x0 * x1 / 2 = 0) by lra || (field_simplify in A2; nra).
  split; lra.
Qed.

Section Two.
Variable o : options.
Variables (nodes : list R) (bs : list poly).
Variables (SIG : nat -> nat -> R) (LAMS LAMC EPS : R) (inv : stencil -> (nat -> R) -> nat -> R).
Hypothesis H2 : N o = 2%nat.
Hypothesis HN : length nodes = N o.
Hypothesis HW : WenoProps.weno_setup nodes bs inv SIG LAMS LAMC EPS.
Variable WG : nat -> R.
Hypothesis HG : dg_basis nodes bs WG.
Notation rec := (reconstruct (N o) SIG LAMS LAMC EPS inv).
Notation E := (end_values bs).

Lemma HX i : (i < N o)%nat -> 0 <= nth i nodes 0 <= 1.
Proof using H2 HN HG.
  intros Hi. destruct (gauss_two nodes bs WG HG ltac:(lia)) as [A B]. assert (0 <= nth 0 nodes 0 <= 1 /\ 0 <= nth 1 nodes 0 <= 1) by (split; split; nra). destruct i as [|[|i]]; [apply H..|lia].
Qed.
(** the line through two neighbouring averages *)
Lemma line_average m sl a : is_RInt (evaluate [m - sl / 2; sl]) a (a + 1) (m + sl * a).
Proof.
  replace (m + sl * a) with (evaluate (integrate [m - sl / 2; sl]) (a + 1) - evaluate (integrate [m - sl / 2; sl]) a); [apply integrate_RInt|]. cbn. field.
Qed.
Lemma fit_two w s i : s = sL \/ s = sR -> (i < 2)%nat -> fit 2 inv w s i = w 1%nat + (match s with sL => w 1%nat - w 0%nat | _ => w 2%nat - w 1%nat end) * (nth i nodes 0 - 1 / 2).
Proof using H2 HN HW.
  intros Hs Hi. destruct HW as (DN & HB & N1 & HI & _). assert (L2 : length nodes = 2%nat) by congruence. rewrite L2 in HI.
  set (sl := match s with sL => w 1%nat - w 0%nat | _ => w 2%nat - w 1%nat end).
  transitivity (evaluate [w 1%nat - sl / 2; sl] (nth i nodes 0)); [|cbn; field].
  pose proof (M_cancel nodes bs DN HB ltac:(lia) s (fit 2 inv w s) (fun j => evaluate [w 1%nat - sl / 2; sl] (nth j nodes 0))) as MC. rewrite L2 in MC. apply MC; [clear i Hi|exact Hi].
  intros i Hi. unfold fit. rewrite HI by exact Hi. symmetry.
  pose proof (M_int nodes bs s i (fun j => evaluate [w 1%nat - sl / 2; sl] (nth j nodes 0))) as MI. rewrite L2 in MI.
  apply (rint_unique _ _ _ _ _ MI).
  eapply (@is_RInt_ext R_NormedModule).
  { intros t _. pose proof (basis_interp nodes bs DN HB [w 1%nat - sl / 2; sl] t) as BI. rewrite L2 in BI. apply BI. cbn. lia. }
  replace (w (off 2 s + i)%nat) with (w 1%nat + sl * IZR (lo 2 s i)); [rewrite plus_IZR; apply line_average|].
  unfold sl. destruct Hs as [->| ->]; destruct i as [|[|i]]; try lia; cbn; ring.
Qed.
Lemma rec_two w : exists sl, (forall i, (i < 2)%nat -> rec w i = w 1%nat + sl * (nth i nodes 0 - 1 / 2)) /\ forall c, Rabs (w 1%nat - w 0%nat) <= c -> Rabs (w 2%nat - w 1%nat) <= c -> Rabs sl <= c.
Proof using H2 HN HW.
  destruct HW as (_ & _ & _ & _ & L1 & L2 & E1 & P).
  assert (TP : forall s, s = sL \/ s = sR -> 0 < trust 2 SIG LAMS LAMC EPS inv w s).
  { intros s Hs. unfold trust, oscillation. specialize (P (fit 2 inv w s)). rewrite HN, H2 in P. apply Rdiv_lt_0_compat; [destruct Hs as [->| ->]; exact L1|]. apply pow_lt. lra. }
  pose proof (TP sL ltac:(auto)) as A. pose proof (TP sR ltac:(auto)) as B. set (tL := trust _ _ _ _ _ _ w sL) in *. set (tR := trust _ _ _ _ _ _ w sR) in *.
  exists (((w 1%nat - w 0%nat) * tL + (w 2%nat - w 1%nat) * tR) / (tL + tR)). split.
  - intros i Hi. rewrite H2. unfold reconstruct, over_stencils, stencils. cbn [Nat.ltb Nat.leb app fold_right]. rewrite !fit_two by auto. fold tL tR. field. lra.
  - intros c C0 C1. unfold Rdiv. rewrite Rabs_mult, (Rabs_pos_eq (/ (tL + tR))) by (apply Rlt_le, Rinv_0_lt_compat; lra).
    apply (Rmult_le_reg_r (tL + tR)); [lra|]. rewrite Rmult_assoc, Rinv_l, Rmult_1_r by lra.
    eapply Rle_trans; [apply Rabs_triang|]. rewrite !Rabs_mult, (Rabs_pos_eq tL), (Rabs_pos_eq tR) by lra. nra.
Qed.
(** values at the nodes *)
Lemma rec_bound w a b i : (forall k, (k < 3)%nat -> a <= w k <= b) -> (i < 2)%nat -> a - (b - a) / 2 <= rec w i <= b + (b - a) / 2.
Proof using H2 HN HW HG.
  intros Hw Hi. destruct (rec_two w) as (sl & Hr & Hs). rewrite Hr by exact Hi. pose proof (Hw 0%nat ltac:(lia)). pose proof (Hw 1%nat ltac:(lia)). pose proof (Hw 2%nat ltac:(lia)).
  specialize (Hs (b - a) ltac:(apply Rabs_le; lra) ltac:(apply Rabs_le; lra)). apply Rabs_le_between in Hs.
  pose proof (HX i ltac:(lia)). split; nra.
Qed.
(** at the ends of a cell *)
Lemma ends_line m sl e : rsum 2 (fun r => E e r * (m + sl * (nth r nodes 0 - 1 / 2))) = m + sl * ((if Nat.eqb e 0 then 0 else 1) - 1 / 2).
Proof using H2 HN HW.
  destruct HW as (DN & HB & N1 & _). pose proof (basis_interp nodes bs DN HB [m - sl / 2; sl] (if Nat.eqb e 0 then 0 else 1)) as BI. rewrite HN, H2 in BI. specialize (BI ltac:(cbn; lia)).
  transitivity (evaluate [m - sl / 2; sl] (if Nat.eqb e 0 then 0 else 1)); [|cbn; field]. rewrite BI. apply rsum_ext. intros i Hi. unfold end_values. cbn [evaluate]. cbn. field.
Qed.
Lemma ends_bound w a b e : (forall k, (k < 3)%nat -> a <= w k <= b) -> a - (b - a) / 2 <= rsum 2 (fun r => E e r * rec w r) <= b + (b - a) / 2.
Proof using H2 HN HW.
  intros Hw. clear HG. destruct (rec_two w) as (sl & Hr & Hs). rewrite (rsum_ext 2 _ (fun r => E e r * (w 1%nat + sl * (nth r nodes 0 - 1 / 2)))) by (intros r Hlt; rewrite Hr by exact Hlt; reflexivity). rewrite ends_line.
  pose proof (Hw 0%nat ltac:(lia)). pose proof (Hw 1%nat ltac:(lia)). pose proof (Hw 2%nat ltac:(lia)).
  specialize (Hs (b - a) ltac:(apply Rabs_le; lra) ltac:(apply Rabs_le; lra)). apply Rabs_le_between in Hs. destruct (Nat.eqb e 0); split; nra.
Qed.

Variable E0 : R.
Variable wallf : nat -> nat -> num -> num.
Variable bt : nat -> nat.
Lemma extend1_within (P : R -> Prop) t0 t1 d n f z : (forall y, (0 <= y < n)%Z -> exists q, f y = Some q /\ resting E0 q /\ P (q 0%nat)) ->
  (1 < t0 -> total_cell (wallf t0 d) /\ calm_wall E0 (wallf t0 d))%nat -> (1 < t1 -> total_cell (wallf t1 d) /\ calm_wall E0 (wallf t1 d))%nat -> (0 < n)%Z -> (- n <= z < 2 * n)%Z ->
  exists q, extend1 num wallf t0 t1 d n f z = Some q /\ resting E0 q /\ P (q 0%nat).
Proof using.
  clear. intros H H0 H1 Hn Hz. unfold extend1.
  assert (W : forall t y, (1 < t -> total_cell (wallf t d) /\ calm_wall E0 (wallf t d))%nat -> (1 < t)%nat -> (0 <= y < n)%Z -> exists q, wallf t d (f y) = Some q /\ resting E0 q /\ P (q 0%nat)).
  { intros t y Ht T Hy. destruct (Ht T) as [A B]. destruct (H y Hy) as (q & -> & Hq & D). exists (at_numbers (wallf t d) q).
    split; [apply total_at, A|]. destruct (B q Hq) as [Bq Dq]. rewrite Dq. auto. }
  destruct (Z.ltb_spec z 0).
  - unfold ghost. destruct t0 as [|[|t0]].
    + apply H. lia.
    + apply H. pose proof (Z.mod_pos_bound z n ltac:(lia)). lia.
    + apply W; [exact H0|lia|lia].
  - destruct (Z.ltb_spec z n); [apply H; lia|]. unfold ghost. destruct t1 as [|[|t1]].
    + apply H. lia.
    + apply H. pose proof (Z.mod_pos_bound z n ltac:(lia)). lia.
    + apply W; [exact H1|lia|lia].
Qed.
(** a line: densities within a factor of 3 *)
Theorem gentle1 n x a b : (2 <= n)%nat -> calm_walls E0 wallf bt 1 -> 0 < a -> b < 3 * a -> (forall c, (c < n)%nat -> resting E0 (x c) /\ a <= x c 0%nat <= b) ->
  solid1 (fun r => 0 < r) o E SIG LAMS LAMC EPS inv wallf bt n x.
Proof using H2 HN HW HG.
  intros Hn HC Ha Hb Hx z Hz.
  assert (X : forall k, (k < 3)%nat -> a <= extended1 wallf bt n x (z - Z.of_nat (N o) + 1 + Z.of_nat k) 0%nat <= b).
  { intros k Hk. unfold extended1. rewrite H2.
    destruct (extend1_within (fun r => a <= r <= b) (bt 0%nat) (bt 1%nat) 0 (Z.of_nat n) (fun y => Some (x (Z.to_nat y))) (z - Z.of_nat 2 + 1 + Z.of_nat k)) as (q & -> & _ & D); try lia.
    - intros y Hy. eexists. split; [reflexivity|]. apply Hx. lia.
    - intros B. apply (HC 0%nat); [lia|exact B].
    - intros B. apply (HC 1%nat); [lia|exact B].
    - exact D. }
  unfold dense1, block1, after, before. rewrite H2 in X |- *. split.
  - intros s Hs. pose proof (rec_bound _ a b s X Hs) as Y. rewrite H2 in Y. lra.
  - intros e He. pose proof (ends_bound _ a b e X) as Y. rewrite H2 in Y. lra.
Qed.
(** a plane: densities within a factor of 9/7; the values at the faces do not grow by more than a factor of 2 *)
Lemma HE e : (e < 2)%nat -> Rabs (E e 0%nat) + Rabs (E e 1%nat) <= 2.
Proof using H2 HN HW HG.
  intros He. destruct (gauss_two nodes bs WG HG ltac:(lia)) as [A B]. pose proof (ends_line 1 0 e) as M1. pose proof (ends_line (1 / 2) 1 e) as M2. cbn [rsum] in M1, M2.
  set (x0 := nth 0 nodes 0) in *. set (x1 := nth 1 nodes 0) in *. set (p := E e 0%nat) in *. set (q := E e 1%nat) in *.
  assert (S1 : p + q = 1) by lra. assert (D : (x1 - x0) * (x1 - x0) = 1 / 3) by nra.
  assert (X : (p - q) * (x1 - x0) = 1 \/ (p - q) * (x1 - x0) = - (1)) by (destruct e as [|[|e]]; [left; cbn [Nat.eqb] in M2; nra|right; cbn [Nat.eqb] in M2; nra|lia]).
  assert (Y : (p - q) * (p - q) = 3) by (destruct X as [X|X]; assert (((p - q) * (x1 - x0)) * ((p - q) * (x1 - x0)) = 1) by (rewrite X; ring); nra).
  assert (Z : - 2 <= p - q <= 2) by (split; nra). unfold Rabs. destruct (Rcase_abs p), (Rcase_abs q); lra.
Qed.
Lemma face_bound g e A B : (e < 2)%nat -> (forall r, (r < 2)%nat -> A <= g r <= B) -> A - (B - A) / 2 <= rsum 2 (fun r => E e r * g r) <= B + (B - A) / 2.
Proof using H2 HN HW HG.
  intros He Hg. pose proof (ends_line ((A + B) / 2) 0 e) as M. pose proof (HE e He) as HEe. pose proof (Hg 0%nat ltac:(lia)) as G0. pose proof (Hg 1%nat ltac:(lia)) as G1. cbn [rsum] in *.
  assert (S0 : forall c d, Rabs (c * d) <= Rabs c * Rabs d) by (intros; rewrite Rabs_mult; lra).
  assert (D0 : Rabs (g 0%nat - (A + B) / 2) <= (B - A) / 2) by (apply Rabs_le; lra). assert (D1 : Rabs (g 1%nat - (A + B) / 2) <= (B - A) / 2) by (apply Rabs_le; lra).
  pose proof (S0 (E e 0%nat) (g 0%nat - (A + B) / 2)) as P0. pose proof (S0 (E e 1%nat) (g 1%nat - (A + B) / 2)) as P1.
  pose proof (Rabs_pos (E e 0%nat)). pose proof (Rabs_pos (E e 1%nat)).
  assert (Q0 : Rabs (E e 0%nat) * Rabs (g 0%nat - (A + B) / 2) <= Rabs (E e 0%nat) * ((B - A) / 2)) by (apply Rmult_le_compat_l; assumption).
  assert (Q1 : Rabs (E e 1%nat) * Rabs (g 1%nat - (A + B) / 2) <= Rabs (E e 1%nat) * ((B - A) / 2)) by (apply Rmult_le_compat_l; assumption).
  assert (T : Rabs (E e 0%nat * (g 0%nat - (A + B) / 2) + E e 1%nat * (g 1%nat - (A + B) / 2)) <= B - A) by (eapply Rle_trans; [apply Rabs_triang|nra]).
  apply Rabs_le_between in T. lra.
Qed.
Theorem gentle2 nx ny x a b : (2 <= nx)%nat -> (2 <= ny)%nat -> calm_walls E0 wallf bt 2 -> 0 < a -> 7 * b < 9 * a -> (forall c d, (c < nx)%nat -> (d < ny)%nat -> resting E0 (x c d) /\ a <= x c d 0%nat <= b) ->
  solid2 (fun r => 0 < r) o E SIG LAMS LAMC EPS inv wallf bt nx ny x.
Proof using H2 HN HW HG.
  intros Hn Hm HC Ha Hb Hx y z Hy Hz.
  assert (AB : a <= b) by (pose proof (Hx 0%nat 0%nat ltac:(lia) ltac:(lia)); lra).
  assert (X : forall k l, (k < 3)%nat -> (l < 3)%nat -> a <= extended2 wallf bt nx ny x (y - Z.of_nat 2 + 1 + Z.of_nat k) (z - Z.of_nat 2 + 1 + Z.of_nat l) 0%nat <= b).
  { intros k l Hk Hl. unfold extended2, extend2.
    destruct (extend1_within (fun r => a <= r <= b) (bt 2%nat) (bt 3%nat) 1 (Z.of_nat ny)
      (fun j => extend1 num wallf (bt 0%nat) (bt 1%nat) 0 (Z.of_nat nx) (fun c => Some (x (Z.to_nat c) (Z.to_nat j))) (y - Z.of_nat 2 + 1 + Z.of_nat k)) (z - Z.of_nat 2 + 1 + Z.of_nat l)) as (q & Eq & _ & D); try lia.
    - intros j Hj. apply (extend1_within (fun r => a <= r <= b)); try lia.
      + intros c Hc. eexists. split; [reflexivity|]. apply Hx; lia.
      + intros B. apply (HC 0%nat); [lia|exact B].
      + intros B. apply (HC 1%nat); [lia|exact B].
    - intros B. apply (HC 2%nat); [lia|exact B].
    - intros B. apply (HC 3%nat); [lia|exact B].
    - match goal with |- context [val ?t] => replace t with (Some q) by (symmetry; exact Eq) end. exact D. }
  set (g1 l i := rec (fun k => extended2 wallf bt nx ny x (y - Z.of_nat 2 + 1 + Z.of_nat k) (z - Z.of_nat 2 + 1 + Z.of_nat l) 0%nat) i).
  assert (B1 : forall l i, (l < 3)%nat -> (i < 2)%nat -> (3 * a - b) / 2 <= g1 l i <= (3 * b - a) / 2).
  { intros l i Hl Hi. pose proof (rec_bound (fun k => extended2 wallf bt nx ny x (y - Z.of_nat 2 + 1 + Z.of_nat k) (z - Z.of_nat 2 + 1 + Z.of_nat l) 0%nat) a b i ltac:(intros; apply X; lia) Hi) as Y. unfold g1. lra. }
  assert (B2 : forall i j, (i < 2)%nat -> (j < 2)%nat -> (5 * a - 3 * b) / 2 <= rec (fun l => g1 l i) j <= (5 * b - 3 * a) / 2).
  { intros i j Hi Hj. pose proof (rec_bound (fun l => g1 l i) _ _ j (fun l Hl => B1 l i Hl Hi) Hj) as Y. lra. }
  assert (BE : forall i e, (i < 2)%nat -> (5 * a - 3 * b) / 2 <= rsum 2 (fun r => E e r * rec (fun l => g1 l i) r) <= (5 * b - 3 * a) / 2).
  { intros i e Hi. pose proof (ends_bound (fun l => g1 l i) _ _ e (fun l Hl => B1 l i Hl Hi)) as Y. lra. }
  unfold dense2, block2, after, before. rewrite H2. change (2 ^ 2)%nat with 4%nat.
  change (reconstruct 2 SIG LAMS LAMC EPS inv) with (reconstruct 2 SIG LAMS LAMC EPS inv) in *. unfold g1 in B2, BE. rewrite H2 in B2, BE. split.
  - intros s Hs. pose proof (B2 (s / 2)%nat (s mod 2)%nat ltac:(apply Nat.div_lt_upper_bound; lia) ltac:(apply Nat.mod_upper_bound; lia)) as Y. lra.
  - intros e s He Hs. split.
    + rewrite (rsum_ext 2 _ (fun r => E e r * reconstruct 2 SIG LAMS LAMC EPS inv (fun l => reconstruct 2 SIG LAMS LAMC EPS inv (fun k => extended2 wallf bt nx ny x (y - Z.of_nat 2 + 1 + Z.of_nat k) (z - Z.of_nat 2 + 1 + Z.of_nat l) 0%nat) r) s)).
      * pose proof (face_bound (fun r => reconstruct 2 SIG LAMS LAMC EPS inv (fun l => reconstruct 2 SIG LAMS LAMC EPS inv (fun k => extended2 wallf bt nx ny x (y - Z.of_nat 2 + 1 + Z.of_nat k) (z - Z.of_nat 2 + 1 + Z.of_nat l) 0%nat) r) s) e _ _ He (fun r Hr => B2 r s Hr Hs)) as Y. lra.
      * intros r Hr. destruct (WenoProof.divmod 2 r s Hs) as [-> ->]. reflexivity.
    + rewrite (rsum_ext 2 _ (fun r => E e r * reconstruct 2 SIG LAMS LAMC EPS inv (fun l => reconstruct 2 SIG LAMS LAMC EPS inv (fun k => extended2 wallf bt nx ny x (y - Z.of_nat 2 + 1 + Z.of_nat k) (z - Z.of_nat 2 + 1 + Z.of_nat l) 0%nat) s) r)).
      * pose proof (BE s e Hs) as Y. lra.
      * intros r Hr. destruct (WenoProof.divmod 2 s r Hr) as [-> ->]. reflexivity.
Qed.
End Two.
