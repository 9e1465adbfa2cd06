(** Plane motion stays plane: the system matrix of the code, and the absolute value of a matrix. *)
From Coq Require Import Reals Lia Lra ZArith.
From Verif Require Import Base Options Sum Mat3 EqModel PhysModel PhysInst PhysProof2 MirrorProof5 MirrorJac PlaneSpec PlaneProof PlaneProof2.
Import List ListNotations.
Open Scope R_scope.

Section Jac.
Variable o : options.
Variable P : par.
Variable solve_multi : vec -> R * R * R.
Variable e : nat.
Hypothesis He : (e < 3)%nat.
Hypothesis HV : VISCOUS o = true.
Notation plane := (plane o e).
Notation sided := (sided o e).
Notation across := (across o e).

Lemma setblock_sided M r c n m f : sided M -> (forall i j, (i < n)%nat -> (j < m)%nat -> across (r + i) <> across (c + j) -> f i j = 0) -> sided (setblock M r c n m f).
Proof using.
  clear. intros H Hf a b Hab. unfold setblock. destruct (Nat.leb_spec r a), (Nat.ltb_spec a (r + n)), (Nat.leb_spec c b), (Nat.ltb_spec b (c + m)); cbn [andb]; try (apply H, Hab).
  apply Hf; try lia. replace (r + (a - r))%nat with a by lia. replace (c + (b - c))%nat with b by lia. exact Hab.
Qed.
Lemma addblock_sided M r c n m f : sided M -> (forall i j, (i < n)%nat -> (j < m)%nat -> across (r + i) <> across (c + j) -> f i j = 0) -> sided (addblock M r c n m f).
Proof using.
  clear. intros H Hf a b Hab. unfold addblock. rewrite (H a b Hab). destruct (Nat.leb_spec r a), (Nat.ltb_spec a (r + n)), (Nat.leb_spec c b), (Nat.ltb_spec b (c + m)); cbn [andb]; try ring.
  rewrite Hf; try lia; [ring|]. replace (r + (a - r))%nat with a by lia. replace (c + (b - c))%nat with b by lia. exact Hab.
Qed.
Lemma sided_zero : sided (fun _ _ => 0).
Proof using. clear. intros a b _. reflexivity. Qed.
Lemma sided_one : sided (fun i j => if Nat.eqb i j then 1 else 0).
Proof using. clear. intros a b H. destruct (Nat.eqb_spec a b) as [->|]; [contradiction H; reflexivity|reflexivity]. Qed.

(** what vanishes in a plane state *)
Lemma rhov_plane q : plane q -> get_rhov q e = 0.
Proof using. clear. intros H. unfold get_rhov. apply H, across_v. Qed.
Lemma rhoJ_plane q : plane q -> THERMAL o = true -> get_rhoJ q e = 0.
Proof using. clear. intros H T. unfold get_rhoJ. apply H, across_J, T. Qed.
Lemma dEdA_plane q i j : plane q -> (i < 3)%nat -> (j < 3)%nat -> xorb (Nat.eqb i e) (Nat.eqb j e) = true -> dEdA P q i j = 0.
Proof using He. intros H Hi Hj X. unfold dEdA, mscal. rewrite (AdevG_plane o e He) by assumption. ring. Qed.
Lemma sigma_plane q d : plane q -> (d < 3)%nat -> d <> e -> sigma_col P q d e = 0.
Proof using He.
  intros Hq Hd Hde. unfold sigma_col, mvec, mscal, mtr, sum3.
  assert (X : forall k, (k < 3)%nat -> dEdA_s P q k e * get_A q k d = 0).
  { intros k Hk. destruct (Nat.eqb_spec k e) as [->|Hne].
    - rewrite (A_plane o e He q e d Hq He Hd); [ring|]. rewrite Nat.eqb_refl. destruct (Nat.eqb_spec d e); [contradiction|reflexivity].
    - rewrite (shear_plane o e He P q k e Hq Hk He); [ring|]. rewrite Nat.eqb_refl. destruct (Nat.eqb_spec k e); [contradiction|reflexivity]. }
  pose proof (X 0%nat ltac:(lia)) as X0. pose proof (X 1%nat ltac:(lia)) as X1. pose proof (X 2%nat ltac:(lia)) as X2.
  replace (- q 0%nat * dEdA_s P q 0%nat e * get_A q 0%nat d + - q 0%nat * dEdA_s P q 1%nat e * get_A q 1%nat d + - q 0%nat * dEdA_s P q 2%nat e * get_A q 2%nat d)
    with (- q 0%nat * (dEdA_s P q 0%nat e * get_A q 0%nat d + dEdA_s P q 1%nat e * get_A q 1%nat d + dEdA_s P q 2%nat e * get_A q 2%nat d)) by ring. rewrite X0, X1, X2. ring.
Qed.
Lemma dsigmadrho_plane q d : plane q -> (d < 3)%nat -> d <> e -> dsigmadrho P q d e = 0.
Proof using He. intros. unfold dsigmadrho. cbv zeta. rewrite sigma_plane by assumption. ring. Qed.
Lemma dsA_plane q r cs d k m n : plane q -> (d < 3)%nat -> d <> e -> (k < 3)%nat -> (m < 3)%nat -> (n < 3)%nat -> xorb (Nat.eqb k e) (xorb (Nat.eqb m e) (Nat.eqb n e)) = true ->
  dsigmadA r cs (get_A q) (mmul (mtr (get_A q)) (get_A q)) (AdevG (get_A q)) d k m n = 0.
Proof using He.
  intros H Hd Hde Hk Hm Hn X. pose proof (fun i j => A_plane o e He q i j H) as Z. pose proof (fun i j => AdevG_plane o e He q i j H) as Z'. unfold dsigmadA, mmul, mtr, sum3. revert Z Z'. generalize (AdevG (get_A q)). intros B. generalize (get_A q). intros A Z Z'.
  destruct e as [|[|[|]]]; try lia; destruct d as [|[|[|]]]; try lia; destruct k as [|[|[|]]]; try lia; (destruct m as [|[|[|]]]; try lia); (destruct n as [|[|[|]]]; try lia); try discriminate X; cbn [Nat.eqb];
    repeat match goal with |- context [A ?a ?b] => first [rewrite (Z a b ltac:(lia) ltac:(lia) eq_refl) | generalize (A a b); intro] end;
    repeat match goal with |- context [B ?a ?b] => first [rewrite (Z' a b ltac:(lia) ltac:(lia) eq_refl) | generalize (B a b); intro] end; field.
Qed.
Lemma across_last : MULTI o = true -> across (mV o) = false.
Proof using He HV. intros HM. destruct (across (mV o)) eqn:E; [|reflexivity]. exfalso. exact (across_mV o e He _ E HV HM eq_refl). Qed.

Ltac ix i := first [assert (i = 0%nat) by lia; subst i | destruct i as [|[|[|i]]]; [| | |exfalso; lia] | destruct i as [|[|[|[|[|[|[|[|[|i]]]]]]]]]; [..|exfalso; lia]].
Ltac block := intros i j Hi Hj X; ix i; ix j; rewrite ?Nat.add_0_r in X; cbn [Nat.add Nat.div Nat.modulo Nat.divmod Nat.sub fst snd].
Ltac sides HE ML := match goal with X : _ <> _ |- _ => first [exfalso; apply X; rewrite ?ML by reflexivity; unfold PlaneSpec.across; rewrite ?HE; reflexivity | clear X] end.

Lemma dPdQ_sided q : plane q -> sided (dPdQ o P solve_multi q).
Proof using He HV.
  intros H. pose proof (rhov_plane q H) as V0. pose proof (rhoJ_plane q H) as J0. pose proof (fun i j => dEdA_plane q i j H) as A0. pose proof across_last as ML.
  unfold dPdQ, dEdJ. generalize (dEdrho o P solve_multi q) (dEdp o P solve_multi q). intros Er Ep. rewrite HV.
  assert (E3 : e = 0%nat \/ e = 1%nat \/ e = 2%nat) by lia.
  destruct (THERMAL o) eqn:HE; destruct (MULTI o) eqn:HM; cbv zeta; [destruct (Z.ltb (-1) (REACTION P))| |destruct (Z.ltb (-1) (REACTION P))|]; repeat (apply setblock_sided || apply addblock_sided || apply sided_one);
    (destruct E3 as [E3|[E3|E3]]; rewrite E3 in *); block; sides HE ML;
    repeat match goal with |- context [dEdA P q ?a ?b] => rewrite (A0 a b ltac:(lia) ltac:(lia) eq_refl) end; rewrite ?V0, ?(J0 eq_refl); unfold Rdiv; ring.
Qed.
Lemma dFdP_sided q d : (d < 3)%nat -> d <> e -> plane q -> sided (dFdP o P solve_multi q d).
Proof using He HV.
  intros Hd Hde H. pose proof (rhov_plane q H) as V0. pose proof (rhoJ_plane q H) as J0. pose proof (fun i j => dEdA_plane q i j H) as A0. pose proof across_last as ML.
  pose proof (fun i j => A_plane o e He q i j H) as B0. pose proof (sigma_plane q d H Hd Hde) as S0. pose proof (dsigmadrho_plane q d H Hd Hde) as R0.
  pose proof (fun k m n => dsA_plane q (q 0%nat) (c_s2 (prm P) (q 0%nat)) d k m n H Hd Hde) as D0.
  unfold dFdP, dEdJ. generalize (dEdrho o P solve_multi q) (dEdp o P solve_multi q) (pressure o P solve_multi q). intros Er Ep p. rewrite HV.
  cbv zeta. revert D0. generalize (dsigmadA (q 0%nat) (c_s2 (prm P) (q 0%nat)) (get_A q) (mmul (mtr (get_A q)) (get_A q)) (AdevG (get_A q)) d). intros D D0.
  assert (E3 : e = 0%nat \/ e = 1%nat \/ e = 2%nat) by lia. assert (D3 : d = 0%nat \/ d = 1%nat \/ d = 2%nat) by lia.
  destruct (THERMAL o) eqn:HE; destruct (MULTI o) eqn:HM; cbv zeta; [destruct (Z.ltb (-1) (REACTION P))| |destruct (Z.ltb (-1) (REACTION P))|]; repeat (apply setblock_sided || apply addblock_sided || apply sided_zero);
    (destruct E3 as [E3|[E3|E3]]; rewrite E3 in *); (destruct D3 as [D3|[D3|D3]]; rewrite D3 in *); try (exfalso; apply Hde; reflexivity); clear Hde;
    block; sides HE ML;
    repeat match goal with |- context [dEdA P q ?a ?b] => rewrite (A0 a b ltac:(lia) ltac:(lia) eq_refl) end;
    repeat match goal with |- context [get_A q ?a ?b] => rewrite (B0 a b ltac:(lia) ltac:(lia) eq_refl) end;
    repeat match goal with |- context [D ?k ?a ?b] => rewrite (D0 k a b ltac:(lia) ltac:(lia) ltac:(lia) eq_refl) end;
    rewrite ?V0, ?(J0 eq_refl), ?S0, ?R0; unfold Rdiv; ring.
Qed.
Lemma jacobian_sided q d : (d < 3)%nat -> d <> e -> plane q -> sided (jacobian_product o P solve_multi q d).
Proof using He HV.
  intros Hd Hde H a b Hab. unfold jacobian_product. apply rsum_zero. intros k Hk. destruct (Bool.bool_dec (across a) (across k)) as [E|E].
  - rewrite (dPdQ_sided q H k b); [ring|]. rewrite <- E. exact Hab.
  - rewrite (dFdP_sided q d Hd Hde H a k E). ring.
Qed.
End Jac.
