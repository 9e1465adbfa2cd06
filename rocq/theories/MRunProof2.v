(** Void cells through a turn. *)
From Coq Require Import Reals Lia Lra ZArith.
From Verif Require Import Base Options Mat3 PhysModel UtilsModel UtilsProof UtilsProps IterModel IterSpec IterProof IterProof2 IterProps RunProof2 MRunProof.
Import List ListNotations.
Open Scope nat_scope.

Section Void.
Variable o : options.
Variable svd : mat3 -> vec3 * mat3.
Variable ROT : bool.
Variables (tol : R) (MPs : list matpar).
Hypothesis HV : VISCOUS o = true.
Notation lo := (V o - LSET o).
(** a cell of the void holds nothing *)
Definition void_cell_empty (q : vec) : Prop := forall m, nth_error MPs (get_material_index o q) = Some m -> mp_void m = true -> forall k, k < lo -> q k = 0%R.
Definition voids_empty (u : grid) : Prop := forall q, In q u -> void_cell_empty q.

Lemma each_cell_all (P Q : vec -> Prop) f : (forall i q q', P q -> f i q = Ok q' -> Q q') -> forall u i u', (forall q, In q u -> P q) -> each_cell f i u = Ok u' -> forall q, In q u' -> Q q.
Proof using.
  clear. intros H. induction u as [|q u IH]; intros i u' HP E; cbn [each_cell] in E; [injection E as <-; intros q []|].
  apply bind_ok in E. destruct E as (q' & Eq & E). apply bind_ok in E. destruct E as (u2 & E2 & E). injection E as <-.
  intros x [<-|Hx]; [apply (H i q); [apply HP; left; reflexivity|exact Eq]|apply (IH (S i) u2); auto]. intros y Hy. apply HP. right. exact Hy.
Qed.
Lemma lo_14 : 14 <= lo.
Proof. pose proof (V14 o HV). lia. Qed.
Lemma same_index q q' : (forall k, lo <= k -> q' k = q k) -> get_material_index o q' = get_material_index o q.
Proof using. clear. intros H. apply material_ext. intros k Hk. apply H. lia. Qed.
Lemma make_u_empty gs ms u u' : make_u o MPs gs ms u = Ok u' -> voids_empty u'.
Proof using.
  clear HV. intros E. refine (each_cell_all (fun _ => True) _ _ _ u 0 u' (fun _ _ => I) E).
  intros i q q' _ H. unfold make_u_cell in H. cbv zeta in H. apply bind_ok in H. destruct H as ([s c] & _ & H). apply bind_ok in H. destruct H as (m & Em & H).
  match type of H with context [setseg ?x 0 lo _] => set (q1 := x) in * end.
  assert (SI : forall f, get_material_index o (setseg q1 0 lo f) = get_material_index o q1).
  { intros f. apply same_index. intros k Hk. unfold setseg. destruct (Nat.ltb_spec k (0 + lo)); [lia|]. rewrite Bool.andb_false_r. reflexivity. }
  destruct (mp_void m) eqn:VM.
  - assert (X : q' = setseg q1 0 lo (fun _ => 0%R)) by congruence. subst q'. intros m' _ _ k Hk. rewrite setseg_in by lia. reflexivity.
  - apply bind_ok in H. destruct H as (g & _ & H). apply bind_ok in H. destruct H as (c1 & _ & H). assert (X : q' = setseg q1 0 lo c1) by congruence. subst q'.
    intros m' Em' VM'. rewrite SI in Em'. apply get_inv in Em. congruence.
Qed.
(** the corrections leave the void and the level sets alone *)
Definition tame (q q' : vec) : Prop := (forall k, lo <= k -> q' k = q k) /\ (forall m, nth_error MPs (get_material_index o q) = Some m -> mp_void m = true -> q' = q).
Lemma tame_empty q q' : tame q q' -> void_cell_empty q -> void_cell_empty q'.
Proof using. clear HV. intros [H1 H2] E m Em VM. rewrite (same_index q q' H1) in Em. rewrite (H2 m Em VM). apply (E m Em VM). Qed.
Ltac seg := unfold setseg, set1; repeat match goal with |- context [Nat.leb ?a ?b] => destruct (Nat.leb_spec a b); [|lia]; cbn [andb]
  | |- context [Nat.ltb ?a ?b] => destruct (Nat.ltb_spec a b); [lia|]; cbn [andb] | |- context [Nat.eqb ?a ?b] => destruct (Nat.eqb_spec a b); [lia|] end; try reflexivity.
Lemma renorm_tame i q q' : renorm_cell o MPs i q = Ok q' -> tame q q'.
Proof using HV.
  pose proof lo_14 as L14. intros E. unfold renorm_cell in E. apply bind_ok in E. destruct E as (m & Em & E). apply get_inv in Em. destruct (mp_void m) eqn:VM.
  - injection E as <-. split; auto.
  - split; [|intros m' Em' VM'; congruence]. destruct (Rlt_dec _ _); [|injection E as <-; auto]. unfold has_A in E. destruct (Nat.ltb _ _); [discriminate|]. injection E as <-. intros k Hk. seg.
Qed.
Lemma rotate_tame i q q' : rotate_cell o svd MPs i q = Ok q' -> tame q q'.
Proof using HV.
  pose proof lo_14 as L14. intros E. unfold rotate_cell in E. apply bind_ok in E. destruct E as (m & Em & E). apply get_inv in Em. destruct (mp_void m) eqn:VM.
  - injection E as <-. split; auto.
  - split; [|intros m' Em' VM'; congruence]. unfold has_A in E. destruct (Nat.ltb _ _); [discriminate|]. destruct (svd _). injection E as <-. intros k Hk. seg.
Qed.
Lemma reset_tame i q q' : reset_cell o MPs i q = Ok q' -> tame q q'.
Proof using HV.
  pose proof lo_14 as L14. intros E. unfold reset_cell in E. apply bind_ok in E. destruct E as (m & Em & E). apply get_inv in Em. destruct (mp_void m) eqn:VM.
  - injection E as <-. split; auto.
  - split; [|intros m' Em' VM'; congruence]. unfold has_A in E. destruct (Nat.ltb _ _); [discriminate|]. injection E as <-. intros k Hk. seg.
Qed.
Lemma limit_empty u : voids_empty u -> voids_empty (limit_concentration o u).
Proof using HV.
  intros H. unfold limit_concentration. destruct (MULTI o) eqn:EM; [|exact H]. intros q Hq. apply in_map_iff in Hq. destruct Hq as (q0 & <- & Hq). intros m Em VM k Hk.
  assert (LM : mV o < lo) by (unfold mV, V; rewrite EM; cbn [b2n]; lia).
  assert (E0 : forall x y, get_material_index o (set1 (set1 q0 (mV o) x) (mV o) y) = get_material_index o q0) by (intros x y; apply same_index; intros j Hj; seg).
  rewrite E0 in Em. pose proof (H q0 Hq m Em VM) as Z. unfold set1. destruct (Nat.eqb_spec k (mV o)) as [->|N]; [|apply Z, Hk].
  rewrite Nat.eqb_refl. rewrite (Z (mV o) LM), (Z 0) by lia. unfold cmin, cmax. repeat destruct (Rlt_dec _ _); lra.
Qed.
Lemma mpost_empty c u u' : voids_empty u -> mpost o svd ROT tol MPs c u = Ok u' -> voids_empty u'.
Proof using HV.
  intros H E. unfold mpost in E. apply limit_empty in H. apply bind_ok in E. destruct E as (u1 & E1 & E).
  assert (H1 : voids_empty u1) by (refine (each_cell_all void_cell_empty _ _ _ _ _ _ H E1); intros i q q' Hq Eq; apply (tame_empty q); [apply (renorm_tame i), Eq|exact Hq]).
  apply bind_ok in E. destruct E as (u2 & E2 & E).
  assert (H2 : voids_empty u2).
  { destruct (_ && _)%bool; [|injection E2 as <-; exact H1]. refine (each_cell_all void_cell_empty _ _ _ _ _ _ H1 E2). intros i q q' Hq Eq. apply (tame_empty q); [apply (rotate_tame i), Eq|exact Hq]. }
  apply bind_ok in E. destruct E as (b & _ & E). destruct b; [|injection E as <-; exact H2].
  refine (each_cell_all void_cell_empty _ _ _ _ _ _ H2 E). intros i q q' Hq Eq. apply (tame_empty q); [apply (reset_tame i), Eq|exact Hq].
Qed.
End Void.
