(** Periodic images of a cell have the same reconstruction, hence the same blocks. *)
From Coq Require Import Reals Lia ZArith.
From Verif Require Import Base Options Sum EqModel EqSpec FvModel FvBody FvSpec FvProof FvProps WenoModel WenoProof StepperModel StepperProof GridModel GridSpec GridProps
  AderModel AderProof AderProof2.
Import List ListNotations.
Open Scope nat_scope.

Definition wrap (n g i : nat) : nat := Z.to_nat ((Z.of_nat i - Z.of_nat g) mod Z.of_nat n).
Lemma wrap_lt n g i : 0 < n -> wrap n g i < n.
Proof. intros H. unfold wrap. pose proof (Z.mod_pos_bound (Z.of_nat i - Z.of_nat g) (Z.of_nat n) ltac:(lia)). lia. Qed.
Lemma wrap_shift n g i : 0 < n -> wrap n g (n + i) = wrap n g i.
Proof.
  intros H. unfold wrap. f_equal. replace (Z.of_nat (n + i) - Z.of_nat g)%Z with (Z.of_nat i - Z.of_nat g + 1 * Z.of_nat n)%Z by lia.
  apply Z_mod_plus_full.
Qed.

Lemma periodic_1d (cell : Type) GN wallf (u ub ub' : buf cell) nx bt f : GN <= nx -> 0 < nx -> bt 0 = PERIODIC -> bt 1 = PERIODIC ->
  blen u = nx -> (forall i, i < nx -> bdat u i = Some (f i)) -> blen ub = extended_dimensions [nx] GN ->
  boundaries cell GN wallf u ub [nx] bt = Ok ub' -> blen ub' = nx + 2 * GN /\ whole ub' (fun i => f (wrap nx GN i)).
Proof.
  intros H1 H2 B0 B1 Lu Du Lb E.
  destruct (boundaries_1d_correct cell GN wallf u ub nx bt f H1 H2) as [ub0 [E0 [L0 V]]]; auto.
  { intros k Hk. assert (C : k = 0 \/ k = 1) by lia. destruct C as [-> | ->]; rewrite ?B0, ?B1; unfold PERIODIC; lia. }
  rewrite E in E0. injection E0 as <-. split; [exact L0|]. intros i Hi. rewrite V by lia. rewrite B0, B1. unfold extend1, ghost, wrap, PERIODIC. f_equal.
  destruct (Z.ltb_spec (Z.of_nat i - Z.of_nat GN) 0) as [C|C]; [reflexivity|].
  destruct (Z.ltb_spec (Z.of_nat i - Z.of_nat GN) (Z.of_nat nx)) as [C'|C']; [|reflexivity]. now rewrite Z.mod_small by lia.
Qed.

Lemma pack_inv m a : m <> 0 -> exists i j, a = i * m + j /\ j < m /\ i = a / m.
Proof. intros H. exists (a / m), (a mod m). pose proof (Nat.div_mod a m H). pose proof (Nat.mod_upper_bound a m H). split; [lia|]. split; [assumption|reflexivity]. Qed.

Lemma periodic_2d (cell : Type) GN wallf (u ub ub' : buf cell) nx ny bt f : GN <= nx -> 0 < nx -> GN <= ny -> 0 < ny -> (forall k, k < 4 -> bt k = PERIODIC) ->
  blen u = nx * ny -> (forall i j, i < nx -> j < ny -> bdat u (i * ny + j) = Some (f i j)) -> blen ub = extended_dimensions [nx; ny] GN ->
  boundaries cell GN wallf u ub [nx; ny] bt = Ok ub' -> blen ub' = (nx + 2 * GN) * (ny + 2 * GN) /\
    whole ub' (fun a => f (wrap nx GN (a / (ny + 2 * GN))) (wrap ny GN (a mod (ny + 2 * GN)))).
Proof.
  intros H1 H2 H3 H4 HB Lu Du Lb E.
  destruct (boundaries_periodic cell GN wallf u ub nx ny bt f H1 H2 H3 H4 HB Lu Du Lb) as [ub1 [E1 V]].
  destruct (boundaries_2d_correct cell GN wallf u ub nx ny bt f H1 H2 H3 H4) as [ub0 [E0 [L0 _]]]; auto.
  { intros k Hk. rewrite HB by exact Hk. unfold PERIODIC. lia. }
  rewrite E in E0, E1. injection E0 as <-. injection E1 as <-. split; [exact L0|]. intros a Ha. rewrite L0 in Ha.
  destruct (pack_inv (ny + 2 * GN) a ltac:(lia)) as [i [j [Ea [Hj Ei]]]].
  assert (Hi : i < nx + 2 * GN) by (rewrite Ei; apply Nat.div_lt_upper_bound; lia).
  rewrite Ea. rewrite V by assumption. rewrite Nat.div_add_l, (Nat.div_small j), Nat.add_0_r by lia.
  rewrite (Nat.add_comm (i * _) j), Nat.mod_add, Nat.mod_small by lia. reflexivity.
Qed.

Section P.
Variable o : options.
Variable ph : phys.
Variables NODES WGHTS : nat -> R.
Variables ENDVALS DERVALS : nat -> nat -> R.
Variables (FLUX : nat) (dt : R) (dX : nat -> R).
Variables (SIG : nat -> nat -> R) (LAMS LAMC EPS : R) (inv : stencil -> (nat -> R) -> nat -> R).
Variable prim : option ((num -> num) * (num -> num)).
Variable Phi : nat -> list num -> res (option (nat -> option nodal)).
Hypothesis N1 : 1 <= N o.
Notation ader := (ader_with o ph NODES WGHTS ENDVALS DERVALS FLUX dt dX SIG LAMS LAMC EPS inv prim Phi).
Notation weno := (weno_launcher (N o) SIG LAMS LAMC EPS inv prim (NO_CORNERS o)).
Notation n := (N o).

Lemma weno_images_1d ub f nx wh : 0 < nx -> blen ub = nx + 2 * n -> whole ub (fun i => f (wrap nx n i)) -> weno (balloc ((nx + 2) * n)) ub [nx] = Ok wh ->
  blen wh = (nx + 2) * n /\ forall i s, i < 2 -> s < n -> rd wh (i * n + s) = rd wh ((nx + i) * n + s).
Proof using N1.
  intros Hx L W E. destruct (weno1d n SIG LAMS LAMC EPS inv N1 prim (NO_CORNERS o) ub _ nx L W) as [wh' [E' [L' V]]]. rewrite E in E'. injection E' as <-.
  split; [exact L'|]. intros i s Hi Hs.
  assert (B : forall k, k < nx + 2 -> k * n + s < (nx + 2) * n) by (intros k Hk; apply pack_bound; lia).
  unfold rd. rewrite L'. rewrite (proj2 (Nat.ltb_lt _ _) (B i ltac:(lia))), (proj2 (Nat.ltb_lt _ _) (B (nx + i) ltac:(lia))). rewrite !V by lia.
  rewrite (sweep_window n SIG LAMS LAMC EPS inv N1 (fun a => pre prim (f (wrap nx n a))) (fun a => pre prim (f (wrap nx n a))) (nx + 2) (nx + 2) nx i s); [reflexivity|lia|lia|].
  intros r Hr. rewrite <- Nat.add_assoc, wrap_shift by exact Hx. reflexivity.
Qed.

Lemma weno_images_2d ub f nx ny wh : NO_CORNERS o = false -> 0 < nx -> 0 < ny -> blen ub = (nx + 2 * n) * (ny + 2 * n) ->
  whole ub (fun a => f (wrap nx n (a / (ny + 2 * n))) (wrap ny n (a mod (ny + 2 * n)))) -> weno (balloc ((nx + 2) * (ny + 2) * n * n)) ub [nx; ny] = Ok wh ->
  let v i j s := rd wh ((i * (ny + 2) + j) * (n * n) + s) in
  blen wh = (nx + 2) * (ny + 2) * n * n /\
  (forall i j s, i < 2 -> j < ny + 2 -> s < n * n -> v i j s = v (nx + i) j s) /\
  (forall i j s, i < nx + 2 -> j < 2 -> s < n * n -> v i j s = v i (ny + j) s).
Proof using N1.
  intros NC Hx Hy L W E v. destruct (weno2d n SIG LAMS LAMC EPS inv N1 prim (NO_CORNERS o) ub _ nx ny L W) as [wh' [E' [L' V]]]. rewrite E in E'. injection E' as <-.
  split; [exact L'|]. rewrite NC in V. set (U := fun a => pre prim (f (wrap nx n (a / (ny + 2 * n))) (wrap ny n (a mod (ny + 2 * n))))) in V.
  assert (Vv : forall i j s, i < nx + 2 -> j < ny + 2 -> s < n * n -> v i j s = Ok (post prim (wh_val n SIG LAMS LAMC EPS inv false U (nx + 2) (ny + 2) i j (s / n) (s mod n)))).
  { intros i j s Hi Hj Hs. unfold v. pose proof (Nat.div_mod s n ltac:(lia)) as Es. pose proof (Nat.mod_upper_bound s n ltac:(lia)) as Ms.
    assert (Ds : s / n < n) by (apply Nat.div_lt_upper_bound; lia).
    replace ((i * (ny + 2) + j) * (n * n) + s) with (((i * (ny + 2) + j) * n + s / n) * n + s mod n) by (rewrite Es at 3; ring).
    unfold rd. rewrite (proj2 (Nat.ltb_lt _ _)) by (rewrite L'; do 3 (apply pack_bound; try lia)). now rewrite V by assumption. }
  assert (EW : ny + 2 + 2 * (n - 1) = ny + 2 * n) by lia.
  assert (Uv : forall p r, r < ny + 2 * n -> U (p * (ny + 2 * n) + r) = pre prim (f (wrap nx n p) (wrap ny n r))).
  { intros p r Hr. unfold U. rewrite Nat.div_add_l, (Nat.div_small r), Nat.add_0_r by lia. rewrite (Nat.add_comm (p * _) r), Nat.mod_add, Nat.mod_small by lia. reflexivity. }
  split.
  - intros i j s Hi Hj Hs. rewrite !Vv by lia. do 2 f_equal.
    rewrite <- (wh_val_window n SIG LAMS LAMC EPS inv N1 U U (nx + 2) 2 (ny + 2) nx i j (s / n) (s mod n)); [|exact Hi|lia|exact Hj|].
    + symmetry. apply (wh_val_window n SIG LAMS LAMC EPS inv N1 U U (nx + 2) 2 (ny + 2) 0 i j (s / n) (s mod n)); [exact Hi|lia|exact Hj|]. intros a Ha. f_equal. 
    + intros a Ha. rewrite EW in *. destruct (pack_inv (ny + 2 * n) a ltac:(lia)) as [p [r [-> [Hr _]]]].
      replace (nx * (ny + 2 * n) + (p * (ny + 2 * n) + r)) with ((nx + p) * (ny + 2 * n) + r) by ring. rewrite !Uv by exact Hr. now rewrite wrap_shift.
  - intros i j s Hi Hj Hs. rewrite !Vv by lia. do 2 f_equal. unfold wh_val. change (gapy false (nx + 2) i) with 0.
    apply (sweep_window n SIG LAMS LAMC EPS inv N1 (fun r => ux_val n SIG LAMS LAMC EPS inv false U (nx + 2) (ny + 2) i r (s / n))
       (fun r => ux_val n SIG LAMS LAMC EPS inv false U (nx + 2) (ny + 2) i r (s / n)) (ny + 2) (ny + 2) ny j (s mod n)); [lia|lia|].
    intros r Hr. unfold ux_val. change (gapx n false (ny + 2) (j + r)) with 0. change (gapx n false (ny + 2) (ny + j + r)) with 0.
    apply (sweep_window n SIG LAMS LAMC EPS inv N1 (fun r0 => U (ny + j + r + (ny + 2 + 2 * (n - 1)) * r0)) (fun r0 => U (j + r + (ny + 2 + 2 * (n - 1)) * r0)) (nx + 2) (nx + 2) 0 i (s / n)); [exact Hi|exact Hi|].
    intros r0 Hr0. rewrite EW. rewrite (Nat.mul_comm (ny + 2 * n)), (Nat.mul_comm (ny + 2 * n)).
    rewrite (Nat.add_comm (j + r)), (Nat.add_comm (ny + j + r)). cbn [Nat.add]. rewrite !Uv by lia. rewrite <- (Nat.add_assoc ny j r), wrap_shift by exact Hy. reflexivity.
Qed.
End P.
