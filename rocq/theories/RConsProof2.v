(** The constraint matrix of the interface solver: its first columns. *)
From Coq Require Import Reals ZArith Lra Psatz Lia FunctionalExtensionality.
From Verif Require Import Base Options Sum Mat3 PhysModel PhysInst PhysProof2 RiemannModel RConsModel RConsSpec RConsProof.
Open Scope R_scope.

Lemma nonzero_sum n f : rsum n f <> 0 -> exists m, (m < n)%nat /\ f m <> 0.
Proof.
  induction n as [|n IH]; cbn [rsum]; intros N; [lra|]. destruct (Req_EM_T (f n) 0) as [Z|Z]; [|exists n; split; [lia|exact Z]].
  rewrite Z in N. destruct IH as (m & Hm & M0); [intro E; apply N; rewrite E; ring|exists m; split; [lia|exact M0]].
Qed.

Section Cons.
Variable o : options.
Variable P : par.
Variable sm : vec -> R * R * R.
Variable inverse : nat -> mat -> mat.
Variable qrsolve : nat -> mat -> mat -> mat.
Variable eigensolve : nat -> mat -> vec * mat.
Hypothesis INV : inverse_ok inverse.
Hypothesis SOL : solve_ok qrsolve.
Hypothesis VI : VISCOUS o = true.
Variable Q : vec.
Notation n1 := (n1 o).
Notation r := (Q 0%nat).
Notation p := (pressure o P sm Q).
Notation X1 := (Xi1 o P r p Q 0).
Notation X2 := (Xi2 o P sm r p Q 0).
Notation Xi := (mm 5 X1 X2).
Notation l := (fst (eigensolve n1 Xi)).
Notation q := (snd (eigensolve n1 Xi)).
Hypothesis HR : r <> 0.
Hypothesis HA : invertible 3 (get_A Q).
Hypothesis HP : THERMAL o = false -> invertible 3 (dsigmadA_dir P Q 0).
Hypothesis EB : eigenbasis n1 Xi l q.
Notation Ai := (inverse 3 (get_A Q)).
Notation tmp := (cons_tmp o P sm inverse Q).
Notation XI := (Xinv o P sm inverse eigensolve Q).
Lemma IX' : inverses n1 Xi XI. Proof. exact (IX o P sm inverse eigensolve INV Q EB). Qed.
Lemma IA' : inverses 3 (get_A Q) Ai. Proof. exact (IA inverse INV Q HA). Qed.
Lemma TT i j : (i < n1)%nat -> (j < 5)%nat -> tmp i j = r * X1 i j. Proof. exact (tmp_top o P sm inverse VI Q HR HP i j). Qed.
Lemma XA a j : (a < 3)%nat -> (j < 3)%nat -> X2 (2 + a)%nat j = get_A Q a j. Proof. exact (X2_A o P sm VI Q HP a j). Qed.
Lemma X0 j : X2 0%nat j = if Nat.eqb j 0 then r else 0. Proof. exact (X2_0 o P sm VI Q HP j). Qed.
Lemma th_cases : THERMAL o = true \/ THERMAL o = false. Proof. clear. destruct (THERMAL o); tauto. Qed.

(** with heat conduction *)
Lemma X2_A3 a : THERMAL o = true -> (a < 3)%nat -> X2 (2 + a)%nat 3%nat = 0.
Proof.
  intros T Ha. unfold Xi2, addblock, setblock. rewrite VI, T. (destruct a as [|[|[|a]]]; try lia); cbn [Nat.leb Nat.ltb Nat.add Nat.sub andb]; ring.
Qed.
Lemma low4 (x : vec) : THERMAL o = true -> rsum 5 (fun j => tmp 4%nat j * x j) = - x 0%nat / r + rsum 3 (fun j => Ai 0%nat j * x (2 + j)%nat).
Proof.
  intros T. unfold cons_tmp, setblock, zero_mat. rewrite T. cbn [rsum Nat.leb Nat.ltb Nat.add Nat.sub andb]. field. exact HR.
Qed.
Lemma n1_4 : THERMAL o = true -> n1 = 4%nat. Proof. intros T. unfold RiemannModel.n1. rewrite T. reflexivity. Qed.
Lemma X2_13 : THERMAL o = true -> X2 1%nat 3%nat <> 0.
Proof.
  intros T E. assert (N : (3 < n1)%nat) by (rewrite (n1_4 T); lia). destruct (IX' 3%nat 3%nat N N) as (_ & E1). revert E1. unfold mm at 1. rewrite rsum_zero.
  - unfold eye. cbn. lra.
  - intros k Hk. replace (Xi k 3%nat) with 0; [ring|]. unfold mm. cbn [rsum]. rewrite X0, E. rewrite (X2_A3 0 T ltac:(lia) : X2 2%nat 3%nat = 0), (X2_A3 1 T ltac:(lia) : X2 3%nat 3%nat = 0), (X2_A3 2 T ltac:(lia) : X2 4%nat 3%nat = 0). cbn [Nat.eqb]. ring.
Qed.
Lemma image (x : vec) : (forall i, (n1 <= i < 5)%nat -> rsum 5 (fun j => tmp i j * x j) = 0) ->
  exists u : vec, forall i, (i < 5)%nat -> x i = rsum n1 (fun k => X2 i k * u k).
Proof.
  intros H. destruct th_cases as [T|T].
  - assert (N := n1_4 T). rewrite N in H |- *.
    assert (E := H 4%nat ltac:(lia)). rewrite low4 in E by exact T.
    set (w := fun j => rsum 3 (fun k => Ai j k * x (2 + k)%nat)).
    assert (AU : forall j, (j < 3)%nat -> rsum 3 (fun k => get_A Q j k * w k) = x (2 + j)%nat).
    { intros j Hj. unfold w. exact (cancel_l 3 Ai (get_A Q) (fun k _ => x (2 + k)%nat) j 0%nat (inv_sym _ _ _ IA') Hj). }
    exists (fun k => if Nat.eqb k 3 then (x 1%nat - rsum 3 (fun k => X2 1%nat k * w k)) / X2 1%nat 3%nat else w k).
    intros i Hi. destruct i as [|[|i]].
    + cbn [rsum Nat.eqb]. rewrite !X0. cbn [Nat.eqb]. change (rsum 3 (fun j => Ai 0%nat j * x (2 + j)%nat)) with (w 0%nat) in E.
      assert (x 0%nat = r * w 0%nat); [|lra]. transitivity (- r * (- x 0%nat / r)); [field; exact HR|]. replace (- x 0%nat / r) with (- w 0%nat) by lra. ring.
    + assert (Z := X2_13 T). cbn [rsum Nat.eqb]. field. exact Z.
    + change (S (S i)) with (2 + i)%nat. rewrite <- AU by lia. cbn [rsum Nat.eqb]. rewrite X2_A3, !XA by (exact T || lia). ring.
  - assert (N := n1_3 o T). rewrite N in H |- *.
    apply (low_image o P sm inverse eigensolve INV VI Q HR HA HP EB T).
    intros i Hi. apply H. lia.
Qed.
Lemma low_mm (u : vec) i : (n1 <= i < 5)%nat -> rsum 5 (fun j => tmp i j * rsum n1 (fun k => X2 j k * u k)) = 0.
Proof.
  intros Hi. destruct th_cases as [T|T].
  - assert (N := n1_4 T). rewrite N in Hi |- *. replace i with 4%nat by lia. rewrite low4 by exact T.
    rewrite (rsum_ext 3 _ (fun j => Ai 0%nat j * rsum 3 (fun k => get_A Q j k * u k))).
    + replace (rsum 3 (fun j => Ai 0%nat j * rsum 3 (fun k => get_A Q j k * u k))) with (u 0%nat).
      * cbn [rsum]. rewrite !X0. cbn [Nat.eqb]. field. exact HR.
      * symmetry. exact (cancel_l 3 (get_A Q) Ai (fun k _ => u k) 0%nat 0%nat IA' ltac:(lia)).
    + intros j Hj. f_equal. cbn [rsum]. rewrite X2_A3, !XA by (exact T || lia). ring.
  - assert (N := n1_3 o T). rewrite N in Hi |- *. replace i with (3 + (i - 3))%nat by lia.
    apply (low_X2 o P sm inverse eigensolve INV VI Q HR HA HP EB T). lia.
Qed.
Lemma top_row (x : vec) i : (i < n1)%nat -> rsum 5 (fun j => tmp i j * x j) = r * rsum 5 (fun j => X1 i j * x j).
Proof. intros Hi. rewrite <- rsum_scal. apply rsum_ext. intros j Hj. rewrite TT by assumption. ring. Qed.
Lemma Xi_vec (u : vec) i : rsum 5 (fun j => X1 i j * rsum n1 (fun k => X2 j k * u k)) = rsum n1 (fun k => Xi i k * u k).
Proof. exact (eq_sym (mm_assoc n1 5 X1 X2 (fun k _ => u k) i 0%nat)). Qed.
Lemma n1_5 : (n1 < 5)%nat. Proof. destruct th_cases as [T|T]; [rewrite (n1_4 T)|rewrite (n1_3 o T)]; lia. Qed.
Lemma tmp_inj (x : vec) : (forall i, (i < 5)%nat -> rsum 5 (fun j => tmp i j * x j) = 0) -> forall j, (j < 5)%nat -> x j = 0.
Proof.
  intros H j Hj. destruct (image x) as (u & Hu); [intros i Hi; apply H; lia|].
  assert (U : forall k, (k < n1)%nat -> u k = 0).
  { apply (inv_kernel n1 Xi XI u IX'). intros i Hi. rewrite <- Xi_vec.
    assert (E := H i ltac:(assert (N := n1_5); lia)). rewrite top_row in E by exact Hi. apply Rmult_integral in E. destruct E as [E|E]; [contradiction|].
    rewrite <- E. apply rsum_ext. intros k Hk. rewrite Hu by exact Hk. reflexivity. }
  rewrite Hu by exact Hj. apply rsum_zero. intros k Hk. rewrite U by exact Hk. ring.
Qed.
Notation X := (qrsolve n1 tmp eye).
(** the columns of the solution *)
Lemma X_sol i k : (i < 5)%nat -> (k < n1)%nat -> X i k = / r * mm n1 X2 XI i k.
Proof.
  intros Hi Hk. revert i k Hi Hk. apply (SOL n1 tmp eye (fun i k => / r * mm n1 X2 XI i k) tmp_inj). intros i k Hi Hk.
  rewrite mm_scal_r. enough (E : rsum 5 (fun j => tmp i j * mm n1 X2 XI j k) = r * eye i k) by (unfold mm at 1; rewrite E; field; exact HR).
  destruct (le_lt_dec n1 i) as [G|L].
  - unfold mm. rewrite (low_mm (fun m => XI m k)) by lia. unfold eye. rewrite (proj2 (Nat.eqb_neq i k)) by lia. ring.
  - rewrite top_row by exact L. f_equal. unfold mm. rewrite (Xi_vec (fun m => XI m k)). apply IX'; assumption.
Qed.
Lemma X1_X i k : (i < n1)%nat -> (k < n1)%nat -> mm 5 X1 X i k = / r * eye i k.
Proof.
  intros Hi Hk. unfold mm at 1. rewrite (rsum_ext 5 _ (fun j => / r * (X1 i j * mm n1 X2 XI j k))) by (intros j Hj; rewrite X_sol by assumption; ring).
  rewrite rsum_scal. f_equal. unfold mm. rewrite (Xi_vec (fun m => XI m k)). apply IX'; assumption.
Qed.

(** ** the matrix *)
Variable sgn : R.
Variable M : mat.
Hypothesis HM : riemann_constraints o P sm inverse qrsolve eigensolve Q sgn = Ok M.
Notation D1 := (fun i j : nat => if Nat.eqb i j then sqrt (/ l i) else 0).
Notation Y0 := (mm n1 (mm n1 q D1) (inverse n1 q)).
Ltac sb := unfold setblock; repeat match goal with
  | |- context [Nat.leb ?a ?b] => (replace (Nat.leb a b) with true by (symmetry; apply Nat.leb_le; lia)) || (replace (Nat.leb a b) with false by (symmetry; apply Nat.leb_gt; lia))
  | |- context [Nat.ltb ?a ?b] => (replace (Nat.ltb a b) with true by (symmetry; apply Nat.ltb_lt; lia)) || (replace (Nat.ltb a b) with false by (symmetry; apply Nat.ltb_ge; lia))
  | |- context [Nat.eqb ?a ?b] => (replace (Nat.eqb a b) with false by (symmetry; apply Nat.eqb_neq; lia))
  end; cbn [andb negb].
Lemma M_form : exists Rhat, eigen o P sm inverse eigensolve Q 0 = Ok Rhat /\
  M = setblock (setblock (setblock (setblock Rhat 0 0 5 n1 X) 11 0 n1 n1 (fun i j => - sgn * mm 5 (mm n1 Y0 X1) X i j)) 0 n1 11 n1 (fun _ _ => 0)) 11 n1 n1 n1 (fun i j => sgn * mm n1 q D1 i j).
Proof.
  unfold riemann_constraints in HM. destruct (eigen o P sm inverse eigensolve Q 0) as [Rh| | |]; try discriminate. cbn [bind] in HM.
  exists Rh. split; [reflexivity|]. injection HM as <-. reflexivity.
Qed.
Lemma M_top i k : (i < 5)%nat -> (k < n1)%nat -> M i k = / r * mm n1 X2 XI i k.
Proof.
  intros Hi Hk. destruct M_form as (Rh & _ & ->). rewrite <- X_sol by assumption. sb. rewrite !Nat.sub_0_r. reflexivity.
Qed.
Lemma M_mid i k : ((5 <= i < 11) \/ 11 + n1 <= i)%nat -> (k < n1)%nat -> M i k = 0.
Proof.
  intros Hi Hk. destruct M_form as (Rh & E & ->). assert (N5 := n1_5). assert (N3 : (3 <= n1)%nat) by (unfold RiemannModel.n1; lia).
  unfold eigen in E. rewrite VI in E. cbn [negb] in E. injection E as <-.
  destruct th_cases as [T|T]; [assert (N := n1_4 T)|assert (N := n1_3 o T)]; unfold n3, n4; rewrite ?T; cbn [b2n Nat.add]; rewrite N in Hi, Hk |- *; destruct Hi as [Hi|Hi]; sb; cbn [andb]; try reflexivity.
  all: rewrite ?Bool.andb_false_r; reflexivity.
Qed.
Lemma M_vel i k : (i < n1)%nat -> (k < n1)%nat -> M (11 + i)%nat k = - sgn * (/ r * Y0 i k).
Proof.
  intros Hi Hk. destruct M_form as (Rh & _ & ->).
  transitivity (- sgn * mm 5 (mm n1 Y0 X1) X i k).
  - sb. replace (11 + i - 11)%nat with i by lia. rewrite Nat.sub_0_r. reflexivity.
  - f_equal. rewrite mm_assoc. rewrite (mm_r n1 _ _ (fun a b => / r * eye a b)) by (intros j Hj; apply X1_X; assumption).
    rewrite mm_scal_r, mm_eye_r by exact Hk. reflexivity.
Qed.
(** functions of the acoustic tensor on its eigenvectors *)
Variable lam : R.
Variable x : vec.
Hypothesis EX : forall i, (i < n1)%nat -> rsum n1 (fun j => Xi i j * x j) = lam * x i.
Lemma IQ' : inverses n1 q (inverse n1 q). Proof. exact (IQ o P sm inverse eigensolve INV Q EB). Qed.
Definition coord (m : nat) : R := rsum n1 (fun j => inverse n1 q m j * x j).
Lemma expand i : (i < n1)%nat -> rsum n1 (fun m => q i m * coord m) = x i.
Proof. intros Hi. exact (cancel_l n1 (inverse n1 q) q (fun k _ => x k) i 0%nat (inv_sym _ _ _ IQ') Hi). Qed.
Lemma coord_l m : (m < n1)%nat -> coord m = 0 \/ l m = lam.
Proof.
  intros Hm. enough (E : (l m - lam) * coord m = 0) by (apply Rmult_integral in E; destruct E; [right; lra|left; assumption]).
  enough (E : forall m, (m < n1)%nat -> (fun m => (l m - lam) * coord m) m = 0) by exact (E m Hm).
  apply (inv_kernel n1 q (inverse n1 q) _ IQ'). intros i Hi.
  rewrite (rsum_ext n1 _ (fun m => l m * q i m * coord m - lam * (q i m * coord m))) by (intros; ring).
  rewrite rsum_minus, rsum_scal, expand by exact Hi. rewrite <- (EX i Hi).
  rewrite (rsum_ext n1 (fun m => l m * q i m * coord m) (fun m => mm n1 Xi q i m * coord m)) by (intros k Hk; f_equal; symmetry; exact (proj2 (proj2 EB) i k Hi Hk)).
  rewrite (rsum_ext n1 (fun j => Xi i j * x j) (fun j => Xi i j * rsum n1 (fun m => q j m * coord m))) by (intros j Hj; rewrite expand by exact Hj; reflexivity).
  assert (E : rsum n1 (fun m => mm n1 Xi q i m * coord m) = rsum n1 (fun j => Xi i j * rsum n1 (fun m => q j m * coord m)))
    by exact (mm_assoc n1 n1 Xi q (fun k _ => coord k) i 0%nat).
  rewrite E. ring.
Qed.
Lemma spec_fun (f : R -> R) i : (i < n1)%nat -> rsum n1 (fun m => q i m * f (l m) * coord m) = f lam * x i.
Proof.
  intros Hi. rewrite <- (expand i Hi), <- rsum_scal. apply rsum_ext. intros m Hm. destruct (coord_l m Hm) as [-> | ->]; ring.
Qed.
Lemma XI_eig i : (i < n1)%nat -> rsum n1 (fun k => XI i k * x k) = / lam * x i.
Proof.
  intros Hi. rewrite <- (spec_fun (fun y => / y) i Hi).
  exact (mm_assoc n1 n1 (fun i m => q i m * / l m) (inverse n1 q) (fun k _ => x k) i 0%nat).
Qed.
Lemma Y0_eig i : (i < n1)%nat -> rsum n1 (fun k => Y0 i k * x k) = sqrt (/ lam) * x i.
Proof.
  intros Hi. rewrite <- (spec_fun (fun y => sqrt (/ y)) i Hi).
  assert (E : rsum n1 (fun k => Y0 i k * x k) = rsum n1 (fun m => mm n1 q D1 i m * coord m))
    by exact (mm_assoc n1 n1 (mm n1 q D1) (inverse n1 q) (fun k _ => x k) i 0%nat).
  rewrite E.
  apply rsum_ext. intros m Hm. f_equal. exact (diag_mul_r n1 (fun a => sqrt (/ l a)) q i m Hm).
Qed.
Lemma lam_pos : (exists k, (k < n1)%nat /\ x k <> 0) -> 0 < lam.
Proof.
  intros (k & Hk & N). rewrite <- (expand k Hk) in N.
  assert (E : exists m, (m < n1)%nat /\ coord m <> 0).
  { destruct (nonzero_sum _ _ N) as (m & Hm & M1). exists m. split; [exact Hm|]. intro Z. apply M1. rewrite Z. ring. }
  destruct E as (m & Hm & N'). destruct (coord_l m Hm) as [E|E]; [contradiction|]. rewrite <- E. exact (proj1 EB m Hm).
Qed.
End Cons.
