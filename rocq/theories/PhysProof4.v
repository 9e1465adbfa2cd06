(** The flux along a curve of states. *)
From Coq Require Import Reals Lra Psatz Lia.
From Coquelicot Require Import Coquelicot.
From Verif Require Import Base Options Sum Mat3 PhysModel PhysInst PhysSpec PhysProof PhysProof2 PhysProof3.
From Verif Require EqModel.
Import List ListNotations.
Open Scope R_scope.

Ltac split_V o VI := destruct o as [vi th mu L nc ds n]; cbn [VISCOUS] in VI; subst vi; destruct th, mu;
  match goal with |- context [V (mkopt true ?t ?m ?L ?a ?b ?c)] =>
    let n := eval compute in (14 + b2n t * 3 + b2n m)%nat in change (V (mkopt true t m L a b c)) with (n + L)%nat in * end.
Ltac zsplit P L := rewrite rsum_split; rewrite (rsum_zero L) by (intros l _; ent; destruct (-1 <? REACTION P)%Z; ent; ring).
Section J.
Variable o : options.
Variable P : par.
Variable sm : vec -> R * R * R.
Hypothesis VI : VISCOUS o = true.
Hypothesis HM : PMULTI P = false.
Hypothesis HR : (-1 < REACTION P)%Z -> MULTI o = true.
Variable F : nat -> R -> R.
Notation Q := (at_time F).
Variable q : vec.
Variable t0 : R.
Hypothesis HQ : forall k, is_derive (fun t => F k t) t0 (q k).
Hypothesis OK : eos_ok (prm P) (Q t0 0%nat).
Hypothesis HG : Gamma_MG (prm P) (Q t0 0%nat) <> 0.
Notation X := (Q t0).

(** the derivative of the primitive variables *)
Variable w : vec.
Hypothesis HW : forall j, (j < V o)%nat -> is_derive (fun t => Pvec o P sm (Q t) j) t0 (w j).

Lemma w_val : forall j (f : R -> R) l, (j < V o)%nat -> is_derive f t0 l -> (forall t, Pvec o P sm (Q t) j = f t) -> w j = l.
Proof.
  intros j f l Hj Hf E. assert (A := HW j Hj). apply (is_derive_ext _ f) in A; [|exact E].
  apply is_derive_unique in A. apply is_derive_unique in Hf. congruence.
Qed.
Lemma V14 : (14 <= V o)%nat. Proof. unfold V. rewrite VI. cbn. lia. Qed.
Ltac pv := intros; unfold Pvec, set1, setseg, mV; rewrite VI; destruct (THERMAL o), (MULTI o); cbn [b2n Nat.mul Nat.add Nat.leb Nat.ltb Nat.eqb andb Nat.sub]; reflexivity.
Lemma w0 : w 0%nat = q 0%nat.
Proof. assert (L := V14). apply (w_val 0%nat (fun t => F 0%nat t)); [lia|apply HQ|]. pv. Qed.
Lemma w1 : w 1%nat = 1 / dedp (prm P) (X 0%nat) * (de_curve F q t0 o P - dedrho (prm P) (X 0%nat) (pressure o P sm X) * q 0%nat).
Proof.
  assert (L := V14). apply (w_val 1%nat (fun t => pressure o P sm (Q t))); [lia|apply pressure_curve; assumption|]. pv.
Qed.
Lemma quot : forall k, is_derive (fun t => F k t / F 0%nat t) t0 ((q k - F k t0 / F 0%nat t0 * q 0%nat) / F 0%nat t0).
Proof.
  intro k. assert (R0 : 0 < F 0%nat t0) by exact (Hr P F t0 OK).
  auto_derive; [repeat split; try (eexists; apply HQ); lra|]. rewrite !(DQ F q t0 HQ). field. lra.
Qed.
Lemma wv : forall i, (i < 3)%nat -> w (2 + i)%nat = (q (2 + i)%nat - F (2 + i)%nat t0 / F 0%nat t0 * q 0%nat) / F 0%nat t0.
Proof.
  intros i Hi. assert (L := V14). apply (w_val _ (fun t => F (2 + i)%nat t / F 0%nat t)); [lia|apply quot|].
  idx3 i; pv.
Qed.
Lemma wA : forall k, (k < 9)%nat -> w (5 + k)%nat = q (5 + k)%nat.
Proof.
  intros k Hk. assert (L := V14). apply (w_val _ (fun t => F (5 + k)%nat t)); [lia|apply HQ|].
  do 9 (destruct k as [|k]; [pv|]). lia.
Qed.
Lemma wJ : THERMAL o = true -> forall i, (i < 3)%nat -> w (14 + i)%nat = (q (14 + i)%nat - F (14 + i)%nat t0 / F 0%nat t0 * q 0%nat) / F 0%nat t0.
Proof.
  intros TH i Hi. assert (L : (17 <= V o)%nat) by (unfold V; rewrite VI, TH; cbn; lia).
  apply (w_val _ (fun t => F (14 + i)%nat t / F 0%nat t)); [lia|apply quot|].
  idx3 i; intro t; unfold Pvec, set1, setseg, mV; rewrite VI, TH; destruct (MULTI o); reflexivity.
Qed.
Lemma wl : MULTI o = true -> w (mV o) = (q (mV o) - F (mV o) t0 / F 0%nat t0 * q 0%nat) / F 0%nat t0.
Proof.
  intros MU. assert (L : (mV o < V o)%nat) by (unfold V, mV; rewrite MU; cbn; lia).
  apply (w_val _ (fun t => F (mV o) t / F 0%nat t)); [lia|apply quot|].
  intro t; unfold Pvec, set1, setseg, mV; rewrite VI, MU; destruct (THERMAL o); reflexivity.
Qed.

Hypothesis HT : THERMAL o = true -> Tref (prm P) = 0 /\ cv (prm P) <> 0.
Hypothesis Hb : b02 (prm P) <> 0.
Variables (ea : EqModel.mat -> vec -> vec) (src : vec -> vec) (sr : mat -> R).
Notation ph := (gpr o P sm sr ea src).

Lemma T_curve : THERMAL o = true ->
  is_derive (fun t => temperature_mg (prm P) (F 0%nat t) (pressure o P sm (Q t))) t0
    (dTdrho (prm P) (X 0%nat) (pressure o P sm X) * q 0%nat + dTdp (prm P) (X 0%nat) * w 1%nat).
Proof.
  intros TH. destruct (HT TH) as (H1 & H2).
  assert (Pc : is_derive (fun t => pressure o P sm (Q t)) t0 (w 1%nat)) by (rewrite w1; apply pressure_curve; assumption).
  assert (A := dp_ref_ok _ _ OK). assert (B := dphi_ok _ _ OK). assert (C := dGamma_ok _ _ OK). assert (R0 := Hr P F t0 OK).
  assert (Q0 : is_derive (F 0%nat) t0 (q 0%nat)) by exact (HQ 0%nat).
  set (fp := fun t => pressure o P sm (Q t)). change (is_derive fp t0 (w 1%nat)) in Pc. change (pressure o P sm X) with (fp t0). change (X 0%nat) with (F 0%nat t0) in *.
  apply (is_derive_ext (fun t => temperature_mg (prm P) (F 0%nat t) (fp t))); [reflexivity|].
  unfold temperature_mg. rewrite H1.
  auto_derive; [repeat split; try (eexists; eassumption)|].
  - repeat apply Rmult_integral_contrapositive_currified; try assumption; lra.
  - dd A; dd B; dd C; dd Q0; dd Pc. unfold dTdrho, dTdp, dedp. field. repeat split; first [assumption|lra].
Qed.

Lemma flux_curve : forall d i, (d < 3)%nat -> (i < V o)%nat ->
  is_derive (fun t => EqModel.flux o ph (fun _ => 0) (Q t) d i) t0 (rsum (V o) (fun j => dFdP o P sm X d i j * w j)).
Proof.
  intros d i Hdd Hi.
  assert (Pc : is_derive (fun t => pressure o P sm (Q t)) t0 (w 1%nat)) by (rewrite w1; apply pressure_curve; assumption).
  assert (Sc := fun k Hk => sigma_curve F q t0 HQ P k d OK Hb Hk Hdd).
  assert (S0 := Sc 0%nat ltac:(lia)). assert (S1 := Sc 1%nat ltac:(lia)). assert (S2 := Sc 2%nat ltac:(lia)). clear Sc.
  assert (Tc := T_curve).
  assert (W0 := w0). assert (W1 := w1). assert (WV0 := wv 0%nat ltac:(lia)). assert (WV1 := wv 1%nat ltac:(lia)). assert (WV2 := wv 2%nat ltac:(lia)).
  assert (WA := wA). assert (WJ := wJ). assert (WL := wl). assert (R0 : F 0%nat t0 <> 0) by exact (Rgt_not_eq _ _ (Hr P F t0 OK)). assert (E1 := Erho o P sm HM F t0). assert (E2 := Ep o P sm HM F t0).
  assert (D := Hd P F t0 OK HG).
  set (fp := fun t => pressure o P sm (Q t)). change (is_derive fp t0 (w 1%nat)) in Pc. set (fs := fun k t => sigma_col P (Q t) d k).
  set (fT := fun t => temperature_mg (prm P) (F 0%nat t) (pressure o P sm (Q t))).
  change (THERMAL o = true -> is_derive fT t0 (dTdrho (prm P) (X 0%nat) (pressure o P sm X) * q 0%nat + dTdp (prm P) (X 0%nat) * w 1%nat)) in Tc.
  change (is_derive (fs 0%nat) t0 (dsigmadrho P X d 0%nat * q 0%nat
     + sum3 (fun m => sum3 (fun n => dsigmadA (X 0%nat) (c_s2 (prm P) (X 0%nat)) (get_A X) (mmul (mtr (get_A X)) (get_A X)) (AdevG (get_A X)) d 0 m n * get_A q m n)))) in S0.
  change (is_derive (fs 1%nat) t0 (dsigmadrho P X d 1%nat * q 0%nat
     + sum3 (fun m => sum3 (fun n => dsigmadA (X 0%nat) (c_s2 (prm P) (X 0%nat)) (get_A X) (mmul (mtr (get_A X)) (get_A X)) (AdevG (get_A X)) d 1 m n * get_A q m n)))) in S1.
  change (is_derive (fs 2%nat) t0 (dsigmadrho P X d 2%nat * q 0%nat
     + sum3 (fun m => sum3 (fun n => dsigmadA (X 0%nat) (c_s2 (prm P) (X 0%nat)) (get_A X) (mmul (mtr (get_A X)) (get_A X)) (AdevG (get_A X)) d 2 m n * get_A q m n)))) in S2.
  apply (is_derive_ext (fun t => EqModel.flux o (EqModel.mkphys (fun _ => fp t) (fun _ _ k => fs k t) (fun _ _ => fT t) (ca2 (prm P)) src (fun _ _ => 0) (fun _ _ _ _ => 0) ea)
     (fun _ => 0) (Q t) d i)); [reflexivity|].
  assert (WA0 := WA 0%nat ltac:(lia)). assert (WA1 := WA 1%nat ltac:(lia)). assert (WA2 := WA 2%nat ltac:(lia)).
  assert (WA3 := WA 3%nat ltac:(lia)). assert (WA4 := WA 4%nat ltac:(lia)). assert (WA5 := WA 5%nat ltac:(lia)).
  assert (WA6 := WA 6%nat ltac:(lia)). assert (WA7 := WA 7%nat ltac:(lia)). assert (WA8 := WA 8%nat ltac:(lia)). clear WA.
  cbn [Nat.add] in *.
  assert (FP : fp t0 = pressure o P sm X) by reflexivity. assert (FT : fT t0 = temperature_mg (prm P) (X 0%nat) (pressure o P sm X)) by reflexivity.
  assert (FS : forall k, fs k t0 = sigma_col P X d k) by reflexivity. assert (B := HB o P HR).
  assert (WJ0 := fun H => WJ H 0%nat ltac:(lia)). assert (WJ1 := fun H => WJ H 1%nat ltac:(lia)). assert (WJ2 := fun H => WJ H 2%nat ltac:(lia)). clear WJ.
  clearbody fp fs fT. clear HT HR Hb OK HW.
  split_V o VI; destruct (lt_cases _ _ _ Hi) as [H|(l & Hl & ->)]; clear Hi.
  (* the level set rows vanish *)
  all: try (rewrite rsum_zero by (intros j Hj; idx3 d; ent; destruct (-1 <? REACTION P)%Z; ent; rewrite ?Bool.andb_false_r; ring);
    apply (is_derive_ext (fun _ => 0)); [intro t; idx3 d; reflexivity|apply (is_derive_const (V := R_NormedModule) 0)]).
  all: try specialize (Tc eq_refl); try specialize (WJ0 eq_refl); try specialize (WJ1 eq_refl); try specialize (WJ2 eq_refl); try specialize (WL eq_refl); try (cbv [VISCOUS THERMAL MULTI mV b2n Nat.mul Nat.add] in WL).
  all: idx3 d.
  all: do 18 (try (destruct i as [|i]; [try (exfalso; lia)|])); try (exfalso; lia).
  all: zsplit P L; cbv [EqModel.flux EqModel.bump upd EqModel.pressure EqModel.sigma EqModel.temperature EqModel.calpha2 VISCOUS THERMAL MULTI mV b2n Nat.add Nat.mul Nat.eqb];
     unfold at_time; auto_derive; [repeat split; first [exact R0|match goal with
       | |- ex_derive (fun x => F ?k x) _ => exists (q k); exact (HQ k) end
       |eexists; exact Pc|eexists; exact S0|eexists; exact S1|eexists; exact S2|eexists; exact Tc]|].
  all: rewrite ?(DQ F q t0 HQ); dd Pc; dd S0; dd S1; dd S2; try dd Tc.
  all: change (fun k : nat => F k t0) with X.
  all: destruct (-1 <? REACTION P)%Z eqn:RE; try (exfalso; clear - B RE; rewrite ?RE in B; discriminate (B eq_refl)); unfold dFdP; rewrite ?RE; ent.
  all: try (rewrite E1, E2, W1; unfold de_curve; cbv [VISCOUS THERMAL MULTI mV b2n Nat.mul Nat.add]; rewrite ?RE).
  all: rewrite ?FP, ?FT, ?FS.
  all: match goal with |- context [pressure ?a ?b ?c ?d] => generalize (pressure a b c d); intro pp | _ => idtac end.
  all: unfold dEdA, dEdJ, dot3, frob3, mscal, get_rhov, get_rhoJ, sum3.
  all: try match goal with |- context [dsigmadA ?a ?b ?c ?d ?e ?k ?l ?m ?n] => generalize (dsigmadA a b c d e); intro sA end.
  all: try match goal with |- context [dsigmadrho P X ?d ?i] => generalize (dsigmadrho P X d); intro sr0 end.
  all: try match goal with |- context [sigma_col P X ?d ?i] => generalize (sigma_col P X d); intro sc end.
  all: generalize (devGsq (get_A X)) (AdevG (get_A X)); intros dG AG.
  all: generalize (C_0 (prm P) (X 0%nat)) (dC_0drho (prm P) (X 0%nat)).
  all: try match goal with |- context [dedrho (prm P) (X 0%nat) ?p] => generalize (dedrho (prm P) (X 0%nat) p); intro er end.
  all: intros c0 dc0; unfold get_A, at_time; cbn [Nat.add Nat.mul].
  all: rewrite ?W0, ?WV0, ?WV1, ?WV2, ?WA0, ?WA1, ?WA2, ?WA3, ?WA4, ?WA5, ?WA6, ?WA7, ?WA8.
  all: try (rewrite WJ0 by fail); try (rewrite WJ1 by fail); try (rewrite WJ2 by fail); try (rewrite WL by fail).
  all: unfold at_time in D; clear - R0 D.
  all: field; try split; assumption.
Qed.
End J.
