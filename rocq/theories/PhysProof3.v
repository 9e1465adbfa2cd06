(** The Jacobians along a curve of states. *)
From Coq Require Import Reals Lra Psatz Lia.
From Coquelicot Require Import Coquelicot.
From Verif Require Import Base Options Sum Mat3 PhysModel PhysInst PhysSpec PhysProof PhysProof2.
From Verif Require EqModel.
Import List ListNotations.
Open Scope R_scope.

Ltac ent := cbv [dPdQ dFdP setblock addblock Nat.leb Nat.ltb Nat.eqb Nat.add Nat.sub Nat.mul andb Nat.div Nat.modulo Nat.divmod fst snd
  VISCOUS THERMAL MULTI LSET mV V b2n rsum].

Section J.
Variable o : options.
Variable P : par.
Variable sm : vec -> R * R * R.
Hypothesis VI : VISCOUS o = true.
Hypothesis HM : PMULTI P = false.
Hypothesis HR : (-1 < REACTION P)%Z -> MULTI o = true.
Variable F : nat -> R -> R.
Notation Q := (at_time F).
Variable q : vec.
Variable t0 : R.
Hypothesis HQ : forall k, is_derive (fun t => F k t) t0 (q k).
Hypothesis OK : eos_ok (prm P) (Q t0 0%nat).
Hypothesis HG : Gamma_MG (prm P) (Q t0 0%nat) <> 0.

Notation X := (Q t0).
Lemma Hr : 0 < X 0%nat. Proof. destruct OK as (A & _). exact A. Qed.
Lemma Hd : dedp (prm P) (X 0%nat) <> 0.
Proof.
  assert (H := Hr). unfold dedp, Rdiv. apply Rmult_integral_contrapositive_currified; [lra|]. apply Rinv_neq_0_compat.
  apply Rmult_integral_contrapositive_currified; [lra|assumption].
Qed.
Lemma HB : (-1 <? REACTION P)%Z = true -> MULTI o = true.
Proof. intro B; apply HR; apply Z.ltb_lt; exact B. Qed.
Lemma Erho : dEdrho o P sm X = dedrho (prm P) (X 0%nat) (pressure o P sm X) + dC_0drho (prm P) (X 0%nat) / 4 * devGsq (get_A X).
Proof. unfold dEdrho. rewrite HM. reflexivity. Qed.
Lemma Ep : dEdp o P sm X = dedp (prm P) (X 0%nat).
Proof. unfold dEdp; rewrite HM; reflexivity. Qed.

(** the number of components before the level sets *)
Ltac split_V := destruct o as [vi th mu L nc ds n]; cbn [VISCOUS] in VI; subst vi; destruct th, mu;
  match goal with |- context [V (mkopt true ?t ?m ?L ?a ?b ?c)] =>
    let n := eval compute in (14 + b2n t * 3 + b2n m)%nat in change (V (mkopt true t m L a b c)) with (n + L)%nat in * end.
Ltac zsplit L := rewrite rsum_split; rewrite (rsum_zero L) by (intros l _; ent; destruct (-1 <? REACTION P)%Z; ent; ring).

Lemma dPdQ_pressure : rsum (V o) (fun j => dPdQ o P sm X 1%nat j * q j)
  = 1 / dedp (prm P) (X 0%nat) * (de_curve F q t0 o P - dedrho (prm P) (X 0%nat) (pressure o P sm X) * q 0%nat).
Proof.
  assert (D := Hd). assert (R0 := Hr). assert (E1 := Erho). assert (E2 := Ep). assert (B := HB).
  split_V; zsplit L.
  all: unfold dPdQ, de_curve; rewrite E1, E2; destruct (-1 <? REACTION P)%Z; try discriminate (B eq_refl); ent.
  all: unfold dEdA, dEdJ, dot3, frob3, mscal, get_rhov, get_rhoJ, sum3; generalize (devGsq (get_A X)) (AdevG (get_A X)); intros dG AG.
  all: unfold get_A; cbn [Nat.add Nat.mul].
  all: match goal with |- context [pressure ?a ?b ?c ?d] => generalize (pressure a b c d); intro pp end.
  all: generalize (dedrho (prm P) (X 0%nat) pp) (C_0 (prm P) (X 0%nat)) (dC_0drho (prm P) (X 0%nat)); intros.
  all: field; repeat split; try assumption; lra.
Qed.

Lemma lt_cases : forall n i L, (i < n + L)%nat -> (i < n)%nat \/ exists l, (l < L)%nat /\ i = (n + l)%nat.
Proof. intros n i L H. destruct (Nat.lt_ge_cases i n); [left; assumption|right]. exists (i - n)%nat. lia. Qed.

Lemma dPdQ_curve : forall i, (i < V o)%nat ->
  is_derive (fun t => Pvec o P sm (Q t) i) t0 (rsum (V o) (fun j => dPdQ o P sm X i j * q j)).
Proof.
  intros i Hi. destruct (Nat.eq_dec i 1) as [E|E].
  { subst i. rewrite dPdQ_pressure.
    apply (is_derive_ext (fun t => pressure o P sm (Q t))).
    { intro t. unfold Pvec, set1, setseg. destruct (THERMAL o), (MULTI o); cbn [Nat.leb Nat.ltb andb Nat.eqb];
       rewrite ?(proj2 (Nat.eqb_neq 1 (mV o))) by (unfold mV; lia); reflexivity. }
    apply pressure_curve; assumption. }
  assert (R0 : 0 < F 0%nat t0) by exact Hr. clear OK HG HR.
  split_V; destruct (lt_cases _ _ _ Hi) as [H|(l & Hl & ->)]; clear Hi.
  all: try (rewrite rsum_split; rewrite rsum_zero by (intros j Hj; do 18 (destruct j as [|j]; [first [exfalso; lia|ent; destruct (-1 <? REACTION P)%Z; ent; ring]|]); exfalso; lia);
    rewrite (rsum_single _ l) by (try assumption; intros j _ Hj; ent; destruct (-1 <? REACTION P)%Z; ent;
       match goal with |- context [if ?b then _ else _] => replace b with false by (symmetry; apply Nat.eqb_neq; lia) end; ring);
    ent; destruct (-1 <? REACTION P)%Z; ent;
    match goal with |- context [if ?b then _ else _] => replace b with true by (symmetry; apply Nat.eqb_refl) end;
    (evar_last; [eapply is_derive_ext; [|apply HQ]; intro t; unfold Pvec, set1, setseg; cbn -[pressure]; reflexivity|cbn [Nat.add]; ring])).
  all: do 18 (destruct i as [|i]; [try (exfalso; first [lia|congruence]); zsplit L; ent; destruct (-1 <? REACTION P)%Z; ent;
     unfold get_rhov, get_rhoJ; cbv [Pvec set1 setseg THERMAL MULTI mV b2n VISCOUS Nat.leb Nat.ltb Nat.eqb Nat.add Nat.sub Nat.mul andb]; unfold at_time;
     (auto_derive; [repeat split; try (eexists; apply HQ); lra|]); rewrite ?(DQ F q t0 HQ); field; lra|]); exfalso; lia.
Qed.
End J.
