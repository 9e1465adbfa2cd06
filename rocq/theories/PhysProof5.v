(** Round trips between primitive and conserved variables; the source terms. *)
From Coq Require Import Reals Lra Psatz Lia.
From Coquelicot Require Import Coquelicot.
From Verif Require Import Base Options Sum Mat3 PhysModel PhysInst PhysSpec PhysProof PhysProof2 RiemannModel RiemannProof.
Import List ListNotations.
Open Scope R_scope.

Lemma p_of_e : forall MP r p, r <> 0 -> Gamma_MG MP r <> 0 -> pressure_mg MP r (E_1 MP r p) = p.
Proof. intros MP r p Hr HG. unfold pressure_mg, E_1. field. split; assumption. Qed.
Lemma e_of_p : forall MP r e, r <> 0 -> Gamma_MG MP r <> 0 -> E_1 MP r (pressure_mg MP r e) = e.
Proof. intros MP r p Hr HG. unfold pressure_mg, E_1. field. split; assumption. Qed.

Section RT.
Variable o : options.
Variable P : par.
Variable sm : vec -> R * R * R.
Hypothesis VI : VISCOUS o = true.
Hypothesis HM : PMULTI P = false.
Notation MP := (prm P).


Lemma mV_ge : (14 + 3 * b2n (THERMAL o) <= mV o)%nat.
Proof. unfold mV. rewrite VI. cbn [b2n]. lia. Qed.
Ltac sgl := unfold set1, setseg; repeat match goal with
  | |- context [Nat.eqb ?a ?b] => first [replace (Nat.eqb a b) with false by (symmetry; apply Nat.eqb_neq; lia)|replace (Nat.eqb a b) with true by (symmetry; apply Nat.eqb_eq; lia)]
  | |- context [(Nat.leb ?a ?b && ?c)%bool] => replace (Nat.leb a b && c)%bool with false
      by (symmetry; apply Bool.andb_false_iff; first [left; apply Nat.leb_gt; lia|right; apply Nat.ltb_ge; lia]) end.
(** entries of the results *)
Ltac entries := assert (G := mV_ge); destruct (MULTI o), (THERMAL o); cbn [b2n Nat.mul Nat.add] in G; unfold set1, setseg; repeat match goal with |- context [Nat.eqb ?k (mV o)] => replace (Nat.eqb k (mV o)) with false by (symmetry; apply Nat.eqb_neq; lia) end; cbn [Nat.leb Nat.ltb Nat.eqb andb Nat.add Nat.sub Nat.mul]; try reflexivity.
Lemma Pv_0 : forall Q, Pvec o P sm Q 0%nat = Q 0%nat.
Proof. intro Q. unfold Pvec. entries. Qed.
Lemma Pv_1 : forall Q, Pvec o P sm Q 1%nat = pressure o P sm Q.
Proof. intro Q. unfold Pvec. entries. Qed.
Lemma Pv_v : forall Q i, (i < 3)%nat -> Pvec o P sm Q (2 + i)%nat = Q (2 + i)%nat / Q 0%nat.
Proof. intros Q i Hi. unfold Pvec. idx3 i; entries. Qed.
Lemma Pv_A : forall Q i j, (i < 3)%nat -> (j < 3)%nat -> Pvec o P sm Q (5 + 3 * i + j)%nat = Q (5 + 3 * i + j)%nat.
Proof. intros Q i j Hi Hj. unfold Pvec. idx3 i; idx3 j; entries. Qed.
Lemma Pv_J : forall Q i, THERMAL o = true -> (i < 3)%nat -> Pvec o P sm Q (14 + i)%nat = Q (14 + i)%nat / Q 0%nat.
Proof. intros Q i T Hi. unfold Pvec. assert (G := mV_ge). rewrite T in *. cbn [b2n Nat.mul Nat.add] in G. unfold set1, setseg. idx3 i; destruct (MULTI o); repeat match goal with |- context [Nat.eqb ?k (mV o)] => replace (Nat.eqb k (mV o)) with false by (symmetry; apply Nat.eqb_neq; lia) end; cbn [Nat.leb Nat.ltb Nat.eqb andb Nat.add Nat.sub Nat.mul]; try reflexivity. Qed.
Lemma Pv_l : forall Q, MULTI o = true -> Pvec o P sm Q (mV o) = Q (mV o) / Q 0%nat.
Proof. intros Q T. unfold Pvec, mV. rewrite VI, T. destruct (THERMAL o); reflexivity. Qed.
Lemma rest_false : forall k lo, (lo + 3 <= k)%nat -> (Nat.leb lo k && Nat.ltb k (lo + 3))%bool = false.
Proof. intros. apply Bool.andb_false_iff. right. apply Nat.ltb_ge. lia. Qed.
Lemma eqb_ge : forall k i, (i < k)%nat -> Nat.eqb k i = false. Proof. intros. apply Nat.eqb_neq. lia. Qed.
Lemma Pv_rest : forall Q k, (14 + 3 * b2n (THERMAL o) <= k)%nat -> (MULTI o = true -> k <> mV o) -> Pvec o P sm Q k = Q k.
Proof.
  intros Q k Hk Hm. unfold Pvec, set1, setseg. destruct (MULTI o).
  - rewrite (proj2 (Nat.eqb_neq k (mV o)) (Hm eq_refl)). destruct (THERMAL o); cbn [b2n] in Hk; rewrite ?rest_false by lia; rewrite eqb_ge by lia; reflexivity.
  - destruct (THERMAL o); cbn [b2n] in Hk; rewrite ?rest_false by lia; rewrite eqb_ge by lia; reflexivity.
Qed.
Definition Ev (Pv : vec) : R := total_energy P (Pv 0%nat) (Pv 1%nat) (get_A Pv) (if THERMAL o then Some (get_rhoJ Pv) else None) (get_rhov Pv) (if MULTI o then Some (Pv (mV o)) else None).
Lemma Cv_0 : forall Q, Cvec o P Q 0%nat = Q 0%nat.
Proof. intro Q. unfold Cvec. entries. Qed.
Lemma Cv_1 : forall Q, Cvec o P Q 1%nat = Q 0%nat * Ev Q.
Proof. intro Q. unfold Cvec, Ev. entries. Qed.
Lemma Cv_v : forall Q i, (i < 3)%nat -> Cvec o P Q (2 + i)%nat = Q (2 + i)%nat * Q 0%nat.
Proof. intros Q i Hi. unfold Cvec. idx3 i; entries. Qed.
Lemma Cv_A : forall Q i j, (i < 3)%nat -> (j < 3)%nat -> Cvec o P Q (5 + 3 * i + j)%nat = Q (5 + 3 * i + j)%nat.
Proof. intros Q i j Hi Hj. unfold Cvec. idx3 i; idx3 j; entries. Qed.
Lemma Cv_J : forall Q i, THERMAL o = true -> (i < 3)%nat -> Cvec o P Q (14 + i)%nat = Q (14 + i)%nat * Q 0%nat.
Proof. intros Q i T Hi. unfold Cvec. assert (G := mV_ge). rewrite T in *. cbn [b2n Nat.mul Nat.add] in G. unfold set1, setseg. idx3 i; destruct (MULTI o); repeat match goal with |- context [Nat.eqb ?k (mV o)] => replace (Nat.eqb k (mV o)) with false by (symmetry; apply Nat.eqb_neq; lia) end; cbn [Nat.leb Nat.ltb Nat.eqb andb Nat.add Nat.sub Nat.mul]; try reflexivity. Qed.
Lemma Cv_l : forall Q, MULTI o = true -> Cvec o P Q (mV o) = Q (mV o) * Q 0%nat.
Proof. intros Q T. unfold Cvec, mV. rewrite VI, T. destruct (THERMAL o); reflexivity. Qed.
Lemma Cv_rest : forall Q k, (14 + 3 * b2n (THERMAL o) <= k)%nat -> (MULTI o = true -> k <> mV o) -> Cvec o P Q k = Q k.
Proof.
  intros Q k Hk Hm. unfold Cvec, set1, setseg. destruct (MULTI o).
  - rewrite (proj2 (Nat.eqb_neq k (mV o)) (Hm eq_refl)). destruct (THERMAL o); cbn [b2n] in Hk; rewrite ?rest_false by lia; rewrite eqb_ge by lia; reflexivity.
  - destruct (THERMAL o); cbn [b2n] in Hk; rewrite ?rest_false by lia; rewrite eqb_ge by lia; reflexivity.
Qed.
(** the energy of a primitive vector, spelled out *)
Definition Eparts (r p : R) (A : mat3) (v J : vec3) (l : R) : R :=
  E_1 MP r p + dot3 v v / 2 + C_0 MP r / 4 * devGsq A + (if THERMAL o then ca2 MP * dot3 J J / 2 else 0) + (if MULTI o then Qc P * (l - 1) else 0).
Lemma Ev_parts : forall Q, Ev Q = Eparts (Q 0%nat) (Q 1%nat) (get_A Q) (get_rhov Q) (get_rhoJ Q) (Q (mV o)).
Proof. intro Q. unfold Ev, Eparts, total_energy, E_3, E_2A, E_2J, E_R. destruct (THERMAL o), (MULTI o); ring. Qed.
Lemma ie_parts : ((-1 < REACTION P)%Z <-> MULTI o = true) -> forall Q, internal_energy o P Q =
  Q 1%nat / Q 0%nat - dot3 (fun i => get_rhov Q i / Q 0%nat) (fun i => get_rhov Q i / Q 0%nat) / 2 - C_0 MP (Q 0%nat) / 4 * devGsq (get_A Q)
  - (if THERMAL o then ca2 MP * dot3 (fun i => get_rhoJ Q i / Q 0%nat) (fun i => get_rhoJ Q i / Q 0%nat) / 2 else 0)
  - (if MULTI o then Qc P * (Q (mV o) / Q 0%nat - 1) else 0).
Proof.
  intros HR Q. unfold internal_energy. rewrite VI.
  replace (-1 <? REACTION P)%Z with (MULTI o); [reflexivity|].
  destruct (MULTI o); [symmetry; apply Z.ltb_lt, HR; reflexivity|]. destruct (-1 <? REACTION P)%Z eqn:Z; [|reflexivity]. apply Z.ltb_lt, HR in Z. discriminate.
Qed.
Lemma dot_ext : forall u v u' v', veq u u' -> veq v v' -> dot3 u v = dot3 u' v'.
Proof. intros u v u' v' H K. unfold dot3, sum3. rewrite !H, !K by lia. reflexivity. Qed.

Section Iff.
Hypothesis HR : (-1 < REACTION P)%Z <-> MULTI o = true.
Lemma CP_1 : forall Q, Q 0%nat <> 0 -> Gamma_MG MP (Q 0%nat) <> 0 -> Cvec o P (Pvec o P sm Q) 1%nat = Q 1%nat.
Proof.
  intros Q H0 HG. rewrite Cv_1, Ev_parts, Pv_0, Pv_1. unfold Eparts, pressure. rewrite HM, e_of_p, (ie_parts HR) by assumption.
  rewrite (devGsq_meq (get_A (Pvec o P sm Q)) (get_A Q)) by (intros i j Hi Hj; apply Pv_A; assumption).
  rewrite (dot_ext (get_rhov (Pvec o P sm Q)) (get_rhov (Pvec o P sm Q)) (fun i => get_rhov Q i / Q 0%nat) (fun i => get_rhov Q i / Q 0%nat)) by (intros i Hi; apply Pv_v; assumption).
  destruct (THERMAL o) eqn:T; [rewrite (dot_ext (get_rhoJ (Pvec o P sm Q)) (get_rhoJ (Pvec o P sm Q)) (fun i => get_rhoJ Q i / Q 0%nat) (fun i => get_rhoJ Q i / Q 0%nat)) by (intros i Hi; apply Pv_J; assumption)|];
  (destruct (MULTI o) eqn:MU; [rewrite Pv_l by exact MU|]); field; assumption.
Qed.
Lemma PC_1 : forall Q, Q 0%nat <> 0 -> Gamma_MG MP (Q 0%nat) <> 0 -> Pvec o P sm (Cvec o P Q) 1%nat = Q 1%nat.
Proof.
  intros Q H0 HG. rewrite Pv_1. unfold pressure. rewrite HM, (ie_parts HR), Cv_1, Cv_0, Ev_parts. unfold Eparts.
  rewrite (devGsq_meq (get_A (Cvec o P Q)) (get_A Q)) by (intros i j Hi Hj; apply Cv_A; assumption).
  rewrite (dot_ext (fun i => get_rhov (Cvec o P Q) i / Q 0%nat) (fun i => get_rhov (Cvec o P Q) i / Q 0%nat) (get_rhov Q) (get_rhov Q))
    by (intros i Hi; unfold get_rhov; rewrite Cv_v by exact Hi; field; exact H0).
  transitivity (pressure_mg MP (Q 0%nat) (E_1 MP (Q 0%nat) (Q 1%nat))); [|apply p_of_e; assumption]. f_equal.
  destruct (THERMAL o) eqn:T; [rewrite (dot_ext (fun i => get_rhoJ (Cvec o P Q) i / Q 0%nat) (fun i => get_rhoJ (Cvec o P Q) i / Q 0%nat) (get_rhoJ Q) (get_rhoJ Q))
    by (intros i Hi; unfold get_rhoJ; rewrite Cv_J by assumption; field; exact H0)|];
  (destruct (MULTI o) eqn:MU; [rewrite Cv_l by exact MU|]); field; assumption.
Qed.

Lemma CP : forall Q k, Q 0%nat <> 0 -> Gamma_MG MP (Q 0%nat) <> 0 -> Cvec o P (Pvec o P sm Q) k = Q k.
Proof.
  intros Q k H0 HG. destruct (index_cases (THERMAL o) k) as [->|[->|[(i & Hi & ->)|[(i & j & Hi & Hj & ->)|[(T & i & Hi & ->)|H]]]]].
  - rewrite Cv_0, Pv_0. reflexivity.
  - apply CP_1; assumption.
  - rewrite Cv_v, Pv_v, Pv_0 by exact Hi. field. exact H0.
  - rewrite Cv_A, Pv_A by assumption. reflexivity.
  - rewrite Cv_J, Pv_J, Pv_0 by assumption. field. exact H0.
  - destruct (MULTI o) eqn:MU.
    + destruct (Nat.eq_dec k (mV o)) as [->|N]; [rewrite Cv_l, Pv_l, Pv_0 by exact MU; field; exact H0|].
      rewrite Cv_rest, Pv_rest by (assumption || (intros _; exact N)). reflexivity.
    + rewrite Cv_rest, Pv_rest by (assumption || congruence). reflexivity.
Qed.
Lemma PC : forall Q k, Q 0%nat <> 0 -> Gamma_MG MP (Q 0%nat) <> 0 -> Pvec o P sm (Cvec o P Q) k = Q k.
Proof.
  intros Q k H0 HG. destruct (index_cases (THERMAL o) k) as [->|[->|[(i & Hi & ->)|[(i & j & Hi & Hj & ->)|[(T & i & Hi & ->)|H]]]]].
  - rewrite Pv_0, Cv_0. reflexivity.
  - apply PC_1; assumption.
  - rewrite Pv_v, Cv_v, Cv_0 by exact Hi. field. exact H0.
  - rewrite Pv_A, Cv_A by assumption. reflexivity.
  - rewrite Pv_J, Cv_J, Cv_0 by assumption. field. exact H0.
  - destruct (MULTI o) eqn:MU.
    + destruct (Nat.eq_dec k (mV o)) as [->|N]; [rewrite Pv_l, Cv_l, Cv_0 by exact MU; field; exact H0|].
      rewrite Pv_rest, Cv_rest by (assumption || (intros _; exact N)). reflexivity.
    + rewrite Pv_rest, Cv_rest by (assumption || congruence). reflexivity.
Qed.
End Iff.

(** the ordering of the Riemann solver *)
Ltac tentries T := assert (G := mV_ge); rewrite ?T in *; destruct (MULTI o); [|]; try destruct (THERMAL o); cbn [b2n Nat.mul Nat.add] in G; unfold set1, setseg;
   repeat match goal with |- context [Nat.eqb ?k (mV o)] => replace (Nat.eqb k (mV o)) with false by (symmetry; apply Nat.eqb_neq; lia) end; cbn [Nat.leb Nat.ltb Nat.eqb andb Nat.add Nat.sub Nat.mul]; try reflexivity.
Notation tp := (Cvec_to_Pvec o P sm). Notation tc := (Pvec_to_Cvec o P).
Lemma tp_0 : forall Q, tp Q 0%nat = Q 0%nat.
Proof. intro Q. unfold Cvec_to_Pvec. entries. Qed.
Lemma tp_1 : forall Q, tp Q 1%nat = pressure o P sm Q.
Proof. intro Q. unfold Cvec_to_Pvec. entries. Qed.
Lemma tp_A : forall Q i j, (i < 3)%nat -> (j < 3)%nat -> tp Q (2 + 3 * j + i)%nat = get_A Q i j.
Proof. intros Q i j Hi Hj. unfold Cvec_to_Pvec. idx3 i; idx3 j; entries. Qed.
Lemma tp_v : forall Q i, (i < 3)%nat -> tp Q (11 + i)%nat = Q (2 + i)%nat / Q 0%nat.
Proof. intros Q i Hi. unfold Cvec_to_Pvec. idx3 i; entries. Qed.
Lemma tp_J : forall Q i, THERMAL o = true -> (i < 3)%nat -> tp Q (14 + i)%nat = Q (14 + i)%nat / Q 0%nat.
Proof. intros Q i T Hi. unfold Cvec_to_Pvec. idx3 i; tentries T. Qed.
Lemma tp_l : forall Q, MULTI o = true -> tp Q (mV o) = Q (mV o) / Q 0%nat.
Proof. intros Q T. unfold Cvec_to_Pvec, mV. rewrite VI, T. destruct (THERMAL o); reflexivity. Qed.
Lemma tp_rest : forall Q k, (14 + 3 * b2n (THERMAL o) <= k)%nat -> (MULTI o = true -> k <> mV o) -> tp Q k = Q k.
Proof.
  intros Q k Hk Hm. unfold Cvec_to_Pvec, set1, setseg. destruct (MULTI o).
  - rewrite (proj2 (Nat.eqb_neq k (mV o)) (Hm eq_refl)). destruct (THERMAL o); cbn [b2n] in Hk; rewrite ?rest_false by lia; rewrite eqb_ge by lia; reflexivity.
  - destruct (THERMAL o); cbn [b2n] in Hk; rewrite ?rest_false by lia; rewrite eqb_ge by lia; reflexivity.
Qed.
Lemma tc_0 : forall Q, tc Q 0%nat = Q 0%nat.
Proof. intro Q. unfold Pvec_to_Cvec. entries. Qed.
Lemma tc_v : forall Q i, (i < 3)%nat -> tc Q (2 + i)%nat = Q 0%nat * Q (11 + i)%nat.
Proof. intros Q i Hi. unfold Pvec_to_Cvec. idx3 i; entries. Qed.
Lemma tc_A : forall Q i j, (i < 3)%nat -> (j < 3)%nat -> tc Q (5 + 3 * i + j)%nat = Q (2 + 3 * j + i)%nat.
Proof. intros Q i j Hi Hj. unfold Pvec_to_Cvec. idx3 i; idx3 j; entries. Qed.
Lemma tc_J : forall Q i, THERMAL o = true -> (i < 3)%nat -> tc Q (14 + i)%nat = Q (14 + i)%nat * Q 0%nat.
Proof. intros Q i T Hi. unfold Pvec_to_Cvec. idx3 i; tentries T. Qed.
Lemma tc_l : forall Q, MULTI o = true -> tc Q (mV o) = Q (mV o) * Q 0%nat.
Proof. intros Q T. unfold Pvec_to_Cvec, mV. rewrite VI, T. destruct (THERMAL o); reflexivity. Qed.
Lemma rest_false9 : forall k lo, (lo + 9 <= k)%nat -> (Nat.leb lo k && Nat.ltb k (lo + 9))%bool = false.
Proof. intros. apply Bool.andb_false_iff. right. apply Nat.ltb_ge. lia. Qed.
Lemma tc_rest : forall Q k, (14 + 3 * b2n (THERMAL o) <= k)%nat -> (MULTI o = true -> k <> mV o) -> tc Q k = Q k.
Proof.
  intros Q k Hk Hm. unfold Pvec_to_Cvec, set1, setseg. destruct (MULTI o).
  - destruct (THERMAL o); cbn [b2n] in Hk; rewrite ?rest_false by lia; rewrite (eqb_ge k 1) by lia; rewrite (proj2 (Nat.eqb_neq k (mV o)) (Hm eq_refl)), !rest_false9 by lia; rewrite ?rest_false by lia; reflexivity.
  - destruct (THERMAL o); cbn [b2n] in Hk; rewrite ?rest_false by lia; rewrite (eqb_ge k 1) by lia; rewrite !rest_false9 by lia; rewrite ?rest_false by lia; reflexivity.
Qed.
Hypothesis HR : (-1 < REACTION P)%Z -> MULTI o = true.
Lemma tc_1 : forall Q, Q 0%nat <> 0 -> tc Q 1%nat = Q 0%nat * (E_1 MP (Q 0%nat) (Q 1%nat) + dot3 (fun i => Q (11 + i)%nat) (fun i => Q (11 + i)%nat) / 2
   + C_0 MP (Q 0%nat) / 4 * devGsq (fun i j => Q (2 + 3 * j + i)%nat) + (if THERMAL o then ca2 MP * dot3 (get_rhoJ Q) (get_rhoJ Q) / 2 else 0)
   + (if (-1 <? REACTION P)%Z then Qc P * (Q (mV o) - 1) else 0)).
Proof.
  intros Q H0. assert (G := mV_ge).
  set (E := E_1 _ _ _). set (V3 := dot3 (fun i => Q (11 + i)%nat) _). set (DG := devGsq _).
  assert (A1 : tc Q 1%nat = Q 0%nat * total_energy P (Q 0%nat) (Q 1%nat) (fun i j => Q (2 + 3 * j + i)%nat)
     (if THERMAL o then Some (get_rhoJ Q) else None) (fun i => Q (11 + i)%nat) (if (-1 <? REACTION P)%Z then Some (Q (mV o) * Q 0%nat / Q 0%nat) else None)).
  { unfold Pvec_to_Cvec. set (te := total_energy P).
    transitivity (Q 0%nat * te (Q 0%nat) (Q 1%nat) (fun i j => Q (2 + 3 * j + i)%nat)
      (if THERMAL o then Some (get_rhoJ (if MULTI o then set1 (setseg (setseg Q 2 3 (fun i => Q 0%nat * Q (11 + i)%nat)) 5 9 (fun k => Q (2 + 3 * (k mod 3) + k / 3)%nat)) (mV o)
            (setseg (setseg Q 2 3 (fun i => Q 0%nat * Q (11 + i)%nat)) 5 9 (fun k => Q (2 + 3 * (k mod 3) + k / 3)%nat) (mV o) * Q 0%nat) else setseg (setseg Q 2 3 (fun i => Q 0%nat * Q (11 + i)%nat)) 5 9 (fun k => Q (2 + 3 * (k mod 3) + k / 3)%nat))) else None)
      (fun i => Q (11 + i)%nat) (if (-1 <? REACTION P)%Z then Some ((if MULTI o then set1 (setseg (setseg Q 2 3 (fun i => Q 0%nat * Q (11 + i)%nat)) 5 9 (fun k => Q (2 + 3 * (k mod 3) + k / 3)%nat)) (mV o)
            (setseg (setseg Q 2 3 (fun i => Q 0%nat * Q (11 + i)%nat)) 5 9 (fun k => Q (2 + 3 * (k mod 3) + k / 3)%nat) (mV o) * Q 0%nat) else setseg (setseg Q 2 3 (fun i => Q 0%nat * Q (11 + i)%nat)) 5 9 (fun k => Q (2 + 3 * (k mod 3) + k / 3)%nat)) (mV o) / Q 0%nat) else None)).
    { destruct (THERMAL o); reflexivity. }
    assert (S9 : setseg (setseg Q 2 3 (fun i => Q 0%nat * Q (11 + i)%nat)) 5 9 (fun k => Q (2 + 3 * (k mod 3) + k / 3)%nat) (mV o) = Q (mV o)).
    { unfold setseg. rewrite rest_false9, rest_false by lia. reflexivity. }
    set (X := setseg (setseg Q 2 3 _) 5 9 _) in *. f_equal.
    assert (XJ : forall i, (i < 3)%nat -> X (14 + i)%nat = Q (14 + i)%nat) by (intros i Hi; idx3 i; reflexivity).
    assert (L : (if (-1 <? REACTION P)%Z then Some ((if MULTI o then set1 X (mV o) (X (mV o) * Q 0%nat) else X) (mV o) / Q 0%nat) else None)
       = (if (-1 <? REACTION P)%Z then Some (Q (mV o) * Q 0%nat / Q 0%nat) else None)).
    { destruct (-1 <? REACTION P)%Z eqn:Z; [|reflexivity]. apply Z.ltb_lt, HR in Z. rewrite Z. unfold set1. rewrite Nat.eqb_refl, S9. reflexivity. }
    rewrite L. unfold te, total_energy. f_equal. f_equal.
    destruct (THERMAL o); [|reflexivity]. unfold E_2J. f_equal. f_equal. unfold dot3, sum3, get_rhoJ.
    cbn [b2n Nat.mul Nat.add] in G.
    assert (Y : forall i, (i < 3)%nat -> (if MULTI o then set1 X (mV o) (X (mV o) * Q 0%nat) else X) (14 + i)%nat = Q (14 + i)%nat).
    { intros i Hi. destruct (MULTI o); [|apply XJ, Hi]. unfold set1. replace (Nat.eqb (14 + i) (mV o)) with false by (symmetry; apply Nat.eqb_neq; lia). apply XJ, Hi. }
    rewrite !Y by lia. reflexivity. }
  rewrite A1. unfold total_energy, E_3, E_2A, E_2J, E_R. fold E V3 DG.
  destruct (THERMAL o), (-1 <? REACTION P)%Z; try (replace (Q (mV o) * Q 0%nat / Q 0%nat) with (Q (mV o)) by (field; exact H0)); ring.
Qed.
Lemma ie_parts2 : forall Q, internal_energy o P Q =
  Q 1%nat / Q 0%nat - dot3 (fun i => get_rhov Q i / Q 0%nat) (fun i => get_rhov Q i / Q 0%nat) / 2 - C_0 MP (Q 0%nat) / 4 * devGsq (get_A Q)
  - (if THERMAL o then ca2 MP * dot3 (fun i => get_rhoJ Q i / Q 0%nat) (fun i => get_rhoJ Q i / Q 0%nat) / 2 else 0)
  - (if (-1 <? REACTION P)%Z then Qc P * (Q (mV o) / Q 0%nat - 1) else 0).
Proof. intros Q. unfold internal_energy. rewrite VI. reflexivity. Qed.
Lemma index_cases2 : forall th k, (k = 0 \/ k = 1 \/ (exists i j, i < 3 /\ j < 3 /\ k = 2 + 3 * j + i) \/ (exists i, i < 3 /\ k = 11 + i)
   \/ (th = true /\ exists i, i < 3 /\ k = 14 + i) \/ (14 + 3 * b2n th <= k))%nat.
Proof.
  intros th k. destruct (le_lt_dec k 1) as [H|H]; [lia|]. destruct (le_lt_dec 11 k) as [H5|H5].
  - destruct (le_lt_dec 14 k) as [H14|H14].
    + destruct th; cbn [b2n]; [|right; right; right; right; right; lia]. destruct (le_lt_dec 17 k); [right; right; right; right; right; lia|].
      right; right; right; right; left. split; [reflexivity|]. exists (k - 14)%nat. lia.
    + right; right; right; left. exists (k - 11)%nat. lia.
  - right; right; left. exists ((k - 2) mod 3)%nat, ((k - 2) / 3)%nat.
    assert (E := Nat.div_mod_eq (k - 2) 3). assert (L := Nat.mod_upper_bound (k - 2) 3 ltac:(lia)). lia.
Qed.
Lemma tc_tp : forall Q k, Q 0%nat <> 0 -> Gamma_MG MP (Q 0%nat) <> 0 -> tc (tp Q) k = Q k.
Proof.
  intros Q k H0 HG. destruct (index_cases (THERMAL o) k) as [->|[->|[(i & Hi & ->)|[(i & j & Hi & Hj & ->)|[(T & i & Hi & ->)|H]]]]].
  - rewrite tc_0, tp_0. reflexivity.
  - rewrite tc_1 by (rewrite tp_0; exact H0). rewrite tp_0, tp_1. unfold pressure. rewrite HM, e_of_p, ie_parts2 by assumption.
    rewrite (devGsq_meq (fun i j => tp Q (2 + 3 * j + i)%nat) (get_A Q)) by (intros i j Hi Hj; apply tp_A; assumption).
    rewrite (dot_ext (fun i => tp Q (11 + i)%nat) (fun i => tp Q (11 + i)%nat) (fun i => get_rhov Q i / Q 0%nat) (fun i => get_rhov Q i / Q 0%nat)) by (intros i Hi; apply tp_v; assumption).
    destruct (THERMAL o) eqn:T; [rewrite (dot_ext (get_rhoJ (tp Q)) (get_rhoJ (tp Q)) (fun i => get_rhoJ Q i / Q 0%nat) (fun i => get_rhoJ Q i / Q 0%nat)) by (intros i Hi; apply tp_J; assumption)|];
    (destruct (-1 <? REACTION P)%Z eqn:Z; [apply Z.ltb_lt, HR in Z; rewrite tp_l by exact Z|]); field; assumption.
  - rewrite tc_v, tp_v, tp_0 by exact Hi. field. exact H0.
  - rewrite tc_A, tp_A by assumption. reflexivity.
  - rewrite tc_J, tp_J, tp_0 by assumption. field. exact H0.
  - destruct (MULTI o) eqn:MU.
    + destruct (Nat.eq_dec k (mV o)) as [->|N]; [rewrite tc_l, tp_l, tp_0 by exact MU; field; exact H0|].
      rewrite tc_rest, tp_rest by (assumption || (intros _; exact N)). reflexivity.
    + rewrite tc_rest, tp_rest by (assumption || congruence). reflexivity.
Qed.
Lemma tp_tc : forall Q k, Q 0%nat <> 0 -> Gamma_MG MP (Q 0%nat) <> 0 -> tp (tc Q) k = Q k.
Proof.
  intros Q k H0 HG. destruct (index_cases2 (THERMAL o) k) as [->|[->|[(i & j & Hi & Hj & ->)|[(i & Hi & ->)|[(T & i & Hi & ->)|H]]]]].
  - rewrite tp_0, tc_0. reflexivity.
  - rewrite tp_1. unfold pressure. rewrite HM, ie_parts2, tc_0, tc_1 by exact H0.
    rewrite (devGsq_meq (get_A (tc Q)) (fun i j => Q (2 + 3 * j + i)%nat)) by (intros i j Hi Hj; apply tc_A; assumption).
    rewrite (dot_ext (fun i => get_rhov (tc Q) i / Q 0%nat) (fun i => get_rhov (tc Q) i / Q 0%nat) (fun i => Q (11 + i)%nat) (fun i => Q (11 + i)%nat))
      by (intros i Hi; unfold get_rhov; rewrite tc_v by exact Hi; field; exact H0).
    transitivity (pressure_mg MP (Q 0%nat) (E_1 MP (Q 0%nat) (Q 1%nat))); [|apply p_of_e; assumption]. f_equal.
    destruct (THERMAL o) eqn:T; [rewrite (dot_ext (fun i => get_rhoJ (tc Q) i / Q 0%nat) (fun i => get_rhoJ (tc Q) i / Q 0%nat) (get_rhoJ Q) (get_rhoJ Q))
      by (intros i Hi; unfold get_rhoJ; rewrite tc_J by assumption; field; exact H0)|];
    (destruct (-1 <? REACTION P)%Z eqn:Z; [apply Z.ltb_lt, HR in Z; rewrite tc_l by exact Z|]); field; assumption.
  - rewrite tp_A by assumption. apply tc_A; assumption.
  - rewrite tp_v, tc_v, tc_0 by exact Hi. field. exact H0.
  - rewrite tp_J, tc_J, tc_0 by assumption. field. exact H0.
  - destruct (MULTI o) eqn:MU.
    + destruct (Nat.eq_dec k (mV o)) as [->|N]; [rewrite tp_l, tc_l, tc_0 by exact MU; field; exact H0|].
      rewrite tp_rest, tc_rest by (assumption || (intros _; exact N)). reflexivity.
    + rewrite tp_rest, tc_rest by (assumption || congruence). reflexivity.
Qed.
End RT.
