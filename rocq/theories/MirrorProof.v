(** Mirror symmetry of the tables of the scheme: nodes that are symmetric about 1/2 give symmetric basis polynomials, end
    values, derivatives, weights, stencil matrices and oscillation indicators. *)
From Coq Require Import Reals Lia Lra ZArith List.
From Coquelicot Require Import Coquelicot.
From Verif Require Import Base Options Sum PolyModel PolyProof PolyProps WenoModel WenoSpec WenoProof WenoProof2 WenoProps DgModel DgSpec DgProof2 DgProps RefSpec.
Import List ListNotations.
Open Scope R_scope.

Fixpoint rprod (n : nat) (f : nat -> R) : R := match n with O => 1 | S m => rprod m f * f m end.
Lemma rprod_ext n f g : (forall i, (i < n)%nat -> f i = g i) -> rprod n f = rprod n g.
Proof. induction n as [|n IH]; intros H; cbn; [reflexivity|]. rewrite IH, H by (intros; try apply H; lia). reflexivity. Qed.
Lemma rprod_S_l n f : rprod (S n) f = f 0%nat * rprod n (fun i => f (S i)).
Proof. induction n as [|n IH]; [cbn; ring|]. change (rprod (S (S n)) f) with (rprod (S n) f * f (S n)). rewrite IH. cbn [rprod]. ring. Qed.
Lemma rprod_rev n : forall f, rprod n f = rprod n (fun i => f (n - 1 - i)%nat).
Proof.
  induction n as [|n IH]; intros f; [reflexivity|]. rewrite rprod_S_l. cbn [rprod]. replace (S n - 1 - n)%nat with 0%nat by lia. rewrite Rmult_comm. f_equal.
  rewrite IH. apply rprod_ext. intros i Hi. f_equal. lia.
Qed.
Lemma lprod_rprod x i t n : lprod x i t n = rprod n (fun m => if Nat.eqb m i then 1 else (t - nth m x 0) / (nth i x 0 - nth m x 0)).
Proof. induction n as [|n IH]; cbn [lprod rprod]; [reflexivity|]. rewrite IH. destruct (Nat.eqb n i); ring. Qed.

Section Tables.
Variables (nodes : list R) (bs : list poly).
Notation n := (length nodes).
Notation x i := (nth i nodes 0).
Hypothesis HD : distinct nodes.
Hypothesis HB : basis_polys nodes = Ok bs.
(** the nodes are symmetric about 1/2 *)
Hypothesis HS : forall i, (i < n)%nat -> x (n - 1 - i) = 1 - x i.
Notation psi j := (evaluate (nth j bs [])).

Lemma psi_prod j t : (j < n)%nat -> psi j t = lprod nodes j t n.
Proof using HB.
  intros Hj. destruct (basis_ok nodes) as (b & E & _ & K). rewrite HB in E. injection E as <-. destruct (lagrange_ok nodes j) as (p & Ep & Hp & _). rewrite K in Ep by exact Hj. injection Ep as <-. apply Hp.
Qed.
Lemma psi_mirror j t : (j < n)%nat -> psi (n - 1 - j) (1 - t) = psi j t.
Proof using HD HB HS.
  intros Hj. rewrite !psi_prod by lia. rewrite !lprod_rprod. rewrite rprod_rev. apply rprod_ext. intros i Hi.
  destruct (Nat.eqb_spec (n - 1 - i) (n - 1 - j)) as [E|E]; destruct (Nat.eqb_spec i j) as [E'|E']; try reflexivity; [exfalso; apply E'; lia|exfalso; apply E; lia|].
  rewrite !HS by assumption. assert (X : x j - x i <> 0) by (intros X; apply E'; symmetry; apply HD; [exact Hj|exact Hi|lra]). field. split; intros Y; apply X; lra.
Qed.
Lemma psi_mirror' j t : (j < n)%nat -> psi (n - 1 - j) t = psi j (1 - t).
Proof using HD HB HS. intros Hj. rewrite <- (psi_mirror j (1 - t) Hj). f_equal. ring. Qed.

Lemma ends_mirror e j : (e < 2)%nat -> (j < n)%nat -> end_values bs (1 - e) (n - 1 - j) = end_values bs e j.
Proof using HD HB HS.
  intros He Hj. unfold end_values. destruct e as [|[|e]]; [| |lia]; cbn [Nat.sub Nat.eqb]; rewrite psi_mirror' by exact Hj; f_equal; ring.
Qed.
Lemma poly_derive p : exists q, forall t, is_derive (evaluate p) t (evaluate q t).
Proof using.
  destruct p as [|a p].
  - exists []. intros t. unfold evaluate at 1. cbn [length rsum]. replace (evaluate [] t) with 0 by reflexivity. apply (@is_derive_const R_AbsRing R_NormedModule 0 t).
  - destruct (differentiate_ok (a :: p) ltac:(discriminate)) as [q [E _]]. exists q. intros t. apply derive_eval, E.
Qed.
Lemma poly_derive_n p k : exists q, forall t, Derive_n (evaluate p) k t = evaluate q t.
Proof using.
  induction k as [|k [q IH]]; [exists p; reflexivity|]. destruct (poly_derive q) as [q' H]. exists q'. intros t. cbn [Derive_n]. rewrite (Derive_ext _ (evaluate q)) by exact IH. apply is_derive_unique, H.
Qed.
Lemma poly_ex_derive_n p k t : ex_derive (Derive_n (evaluate p) k) t.
Proof using. destruct (poly_derive_n p k) as [q H]. apply (ex_derive_ext (evaluate q)); [intros; symmetry; apply H|]. destruct (poly_derive q) as [q' H']. eexists. apply H'. Qed.
Lemma derive_n_mirror p p' : (forall t, evaluate p' t = evaluate p (1 - t)) -> forall k t, Derive_n (evaluate p') k t = (-1) ^ k * Derive_n (evaluate p) k (1 - t).
Proof using.
  intros H k. induction k as [|k IH]; intros t; [cbn; rewrite H; ring|]. cbn [Derive_n]. rewrite (Derive_ext _ _ t IH).
  apply is_derive_unique. pose proof (Derive_correct _ _ (poly_ex_derive_n p k (1 - t))) as X.
  assert (Y : is_derive (fun t => 1 - t) t (-1)) by (auto_derive; [trivial|ring]).
  pose proof (is_derive_comp _ _ _ _ _ X Y) as Z. apply (is_derive_scal _ _ ((-1) ^ k)) in Z. replace ((-1) ^ S k * Derive (Derive_n (evaluate p) k) (1 - t)) with ((-1) ^ k * scal (-1) (Derive (Derive_n (evaluate p) k) (1 - t))); [exact Z|].
  cbn. unfold mult. cbn. ring.
Qed.
Lemma der_mirror i j : (i < n)%nat -> (j < n)%nat -> Dv bs nodes (n - 1 - i) (n - 1 - j) = - Dv bs nodes i j.
Proof using HD HB HS.
  intros Hi Hj. unfold Dv. assert (E : forall k t, (k < n)%nat -> evaluate (dpoly bs k) t = Derive_n (psi k) 1 t).
  { intros k t Hk. symmetry. apply is_derive_unique. apply derive_eval. apply (d_ok nodes bs HB); [lia|exact Hk]. }
  rewrite !E by lia. rewrite (derive_n_mirror (nth j bs [])) by (intros; apply psi_mirror'; exact Hj). rewrite HS by exact Hi. replace (1 - (1 - x i)) with (x i) by ring. ring.
Qed.
Lemma RInt_mirror (f : R -> R) : (forall t, continuous f t) -> RInt (fun t => f (1 - t)) 0 1 = RInt f 0 1.
Proof using.
  intros C. apply is_RInt_unique.
  assert (X : ex_RInt f 0 1) by (apply (ex_RInt_continuous f); auto).
  apply (RInt_correct f 0 1) in X. apply is_RInt_swap in X.
  pose proof (is_RInt_comp_lin f (-1) 1 0 1 (opp (RInt f 0 1))) as L. replace (-1 * 0 + 1) with 1 in L by ring. replace (-1 * 1 + 1) with 0 in L by ring. specialize (L X).
  apply (is_RInt_scal _ _ _ (-1)) in L. apply (is_RInt_ext _ (fun t => f (1 - t))) in L.
  - replace (RInt f 0 1) with (scal (-1) (opp (RInt f 0 1))); [exact L|]. unfold scal, opp. cbn. unfold mult. cbn. ring.
  - intros t _. unfold scal. cbn. unfold mult. cbn. replace (-1 * t + 1) with (1 - t) by ring. ring.
Qed.
Lemma int_mirror p p' l : (forall t, evaluate p' t = evaluate p (1 - t)) -> evaluate (integrate p') (- l + 1) - evaluate (integrate p') (- l) = evaluate (integrate p) (l + 1) - evaluate (integrate p) l.
Proof using.
  intros H. pose proof (integrate_RInt p' (- l) (- l + 1)) as A. pose proof (integrate_RInt p l (l + 1)) as B.
  apply (is_RInt_unique (evaluate p')) in A. rewrite <- A. apply (is_RInt_unique (evaluate p')). apply is_RInt_swap in B.
  pose proof (is_RInt_comp_lin (evaluate p) (-1) 1 (- l) (- l + 1)) as L. replace (-1 * - l + 1) with (l + 1) in L by ring. replace (-1 * (- l + 1) + 1) with l in L by ring. specialize (L _ B).
  apply (is_RInt_scal _ _ _ (-1)) in L. apply (is_RInt_ext _ (evaluate p')) in L.
  - match goal with |- is_RInt _ _ _ ?v => match type of L with is_RInt _ _ _ ?w => replace v with w; [exact L|] end end. unfold scal, opp. cbn. unfold mult. cbn. ring.
  - intros t _. unfold scal. cbn. unfold mult. cbn. rewrite H. replace (-1 * t + 1) with (1 - t) by ring. ring.
Qed.

(** weights of a rule that is exact for the basis *)
Lemma weights_mirror w j : dg_basis nodes bs w -> (j < n)%nat -> w (n - 1 - j)%nat = w j.
Proof using HD HB HS.
  intros (_ & _ & N1 & EX) Hj.
  assert (E : forall k, (k < n)%nat -> w k = RInt (psi k) 0 1).
  { intros k Hk. symmetry. apply is_RInt_unique. replace (w k) with (LegendreSpec.quad n (fun k => x k) w (psi k)); [apply EX; rewrite (basis_len nodes bs HB) by exact Hk; lia|].
    unfold LegendreSpec.quad. rewrite (rsum_single n k); [|exact Hk|].
    - rewrite psi_prod by exact Hk. rewrite lprod_self by (auto; lia). ring.
    - intros i Hi Hik. rewrite psi_prod by exact Hk. rewrite lprod_other by auto; ring. }
  rewrite !E by lia. rewrite <- (RInt_mirror (psi j)) by (intros; apply continuous_evaluate). apply RInt_ext. intros t _. apply psi_mirror', Hj.
Qed.

(** the intended oscillation indicator *)
Definition gram_sum (i j : nat) : R := rsum (n - 1) (fun a => RInt (fun t => Derive_n (psi i) (S a) t * Derive_n (psi j) (S a) t) 0 1).
Lemma gram_mirror i j : (i < n)%nat -> (j < n)%nat -> gram_sum (n - 1 - i) (n - 1 - j) = gram_sum i j.
Proof using HD HB HS.
  intros Hi Hj. unfold gram_sum. apply rsum_ext. intros a _.
  destruct (poly_derive_n (nth i bs []) (S a)) as [p Hp]. destruct (poly_derive_n (nth j bs []) (S a)) as [q Hq].
  transitivity (RInt (fun t => (fun t => evaluate p t * evaluate q t) (1 - t)) 0 1).
  - apply RInt_ext. intros t _. rewrite (derive_n_mirror (nth i bs []) (nth (n - 1 - i) bs [])) by (intros; apply psi_mirror'; exact Hi). rewrite (derive_n_mirror (nth j bs []) (nth (n - 1 - j) bs [])) by (intros; apply psi_mirror'; exact Hj).
    rewrite Hp, Hq. assert (Y : (-1) ^ S a * (-1) ^ S a = 1) by (rewrite <- Rpow_mult_distr; replace (-1 * -1) with 1 by ring; apply pow1).
    match goal with |- ?a = ?b => change (@eq R a b) end. transitivity (((-1) ^ S a * (-1) ^ S a) * (evaluate p (1 - t) * evaluate q (1 - t))); [ring|rewrite Y; ring].
  - rewrite (RInt_mirror (fun t => evaluate p t * evaluate q t)); [apply RInt_ext; intros t _; rewrite Hp, Hq; reflexivity|]. intros t. apply (continuous_mult (evaluate p) (evaluate q)); apply continuous_evaluate.
Qed.

(** stencils: their mirror images *)
Definition opp_stencil (s : stencil) : stencil := match s with sL => sR | sR => sL | sCL => if Nat.even n then sCR else sCL | sCR => if Nat.even n then sCL else sCR end.
Lemma halves : (1 <= n)%nat -> if Nat.even n then (FN2 n + CN2 n = n - 1 /\ CN2 n = FN2 n + 1)%nat else (FN2 n = CN2 n /\ 2 * FN2 n = n - 1)%nat.
Proof using.
  clear HD HB HS. intros H. unfold FN2, CN2. pose proof (Nat.div_mod n 2 ltac:(lia)) as A. pose proof (Nat.div_mod (n - 1) 2 ltac:(lia)) as B.
  pose proof (Nat.mod_upper_bound n 2 ltac:(lia)). pose proof (Nat.mod_upper_bound (n - 1) 2 ltac:(lia)).
  destruct (Nat.even n) eqn:E.
  - apply Nat.even_spec in E. destruct E as [k E]. rewrite E in *. lia.
  - assert (O : Nat.odd n = true) by (rewrite <- Nat.negb_even, E; reflexivity). apply Nat.odd_spec in O. destruct O as [k O]. rewrite O in *. lia.
Qed.
Lemma off_mirror s : (1 <= n)%nat -> (off n (opp_stencil s) + off n s = n - 1)%nat.
Proof using. clear HD HB HS. intros H. pose proof (halves H). destruct s; unfold opp_stencil; cbn [off]; try lia; destruct (Nat.even n); cbn [off]; lia. Qed.
Lemma lo_mirror s i : (i < n)%nat -> lo n (opp_stencil s) (n - 1 - i) = (- lo n s i)%Z.
Proof using. clear HD HB HS. intros H. pose proof (halves ltac:(lia)). destruct s; unfold opp_stencil; cbn [lo]; try lia; destruct (Nat.even n); cbn [lo]; lia. Qed.
Notation M := (coefficient_matrix n (fun j => nth j bs [])).
Lemma matrix_mirror s i j : (i < n)%nat -> (j < n)%nat -> M (opp_stencil s) (n - 1 - i) (n - 1 - j) = M s i j.
Proof using HD HB HS.
  intros Hi Hj. unfold coefficient_matrix. rewrite lo_mirror by exact Hi. rewrite !plus_IZR, opp_IZR. apply int_mirror. intros t. apply psi_mirror', Hj.
Qed.

Variables (inv : stencil -> (nat -> R) -> nat -> R) (SIG : nat -> nat -> R) (LAMS LAMC EPS : R).
Hypothesis HW : weno_setup nodes bs inv SIG LAMS LAMC EPS.
Hypothesis HG : forall i j, (i < n)%nat -> (j < n)%nat -> SIG (n - 1 - i)%nat (n - 1 - j)%nat = SIG i j.
Lemma inv_mirror s sg d d' j : (forall k, (k < n)%nat -> d' k = sg * d (n - 1 - k)%nat) -> (j < n)%nat -> inv (opp_stencil s) d' j = sg * inv s d (n - 1 - j)%nat.
Proof using HD HB HS HW.
  intros Hd Hj. destruct HW as (_ & _ & N1 & SV & _).
  apply (M_cancel nodes bs HD HB N1 (opp_stencil s) (inv (opp_stencil s) d') (fun j => sg * inv s d (n - 1 - j)%nat)); [|exact Hj]. intros i Hi. rewrite SV by exact Hi. rewrite Hd by exact Hi.
  rewrite <- (SV s d (n - 1 - i)%nat) by lia. rewrite <- rsum_scal. rewrite (rsum_rev n (fun j => M (opp_stencil s) i j * _)).
  apply rsum_ext. intros k Hk. rewrite <- (matrix_mirror s (n - 1 - i) k) by lia. replace (n - 1 - (n - 1 - i))%nat with i by lia. replace (n - 1 - (n - 1 - k))%nat with k by lia. ring.
Qed.
Notation fit := (fit n inv).
Notation trust := (trust n SIG LAMS LAMC EPS inv).
Notation reconstruct := (reconstruct n SIG LAMS LAMC EPS inv).
Section Fit.
Variables (sg : R) (w w' : nat -> R).
Hypothesis Hsg : sg * sg = 1.
Hypothesis Hw : forall k, (k < 2 * n - 1)%nat -> w' k = sg * w (2 * n - 2 - k)%nat.
Lemma fit_mirror s i : (i < n)%nat -> fit w' (opp_stencil s) i = sg * fit w s (n - 1 - i)%nat.
Proof using HD HB HS HW Hw.
  intros Hi. unfold RefSpec.fit. apply inv_mirror; [|exact Hi]. intros k Hk. pose proof (off_mirror s ltac:(lia)) as X. rewrite Hw by lia. do 2 f_equal. lia.
Qed.
Lemma trust_mirror s : trust w' (opp_stencil s) = trust w s.
Proof using HD HB HS HW HG Hw Hsg.
  assert (O : oscillation n SIG (fit w' (opp_stencil s)) = oscillation n SIG (fit w s)).
  { unfold oscillation. rewrite rsum_rev. apply rsum_ext. intros i Hi. rewrite rsum_rev. apply rsum_ext. intros j Hj. rewrite !fit_mirror by lia. rewrite HG by assumption. replace (n - 1 - (n - 1 - i))%nat with i by lia. replace (n - 1 - (n - 1 - j))%nat with j by lia.
    transitivity (sg * sg * (fit w s i * SIG i j * fit w s j)); [ring|rewrite Hsg; ring]. }
  unfold RefSpec.trust. rewrite O. destruct s; cbn; try reflexivity; destruct (Nat.even n); reflexivity.
Qed.
Lemma reconstruct_mirror i : (i < n)%nat -> reconstruct w' i = sg * reconstruct w (n - 1 - i)%nat.
Proof using HD HB HS HW HG Hw Hsg.
  intros Hi. unfold RefSpec.reconstruct.
  assert (OS : forall f g, (forall s, f (opp_stencil s) = g s) -> over_stencils n f = over_stencils n g).
  { intros f g H. unfold over_stencils, stencils. pose proof (H sL) as A. pose proof (H sR) as B. pose proof (H sCL) as C. pose proof (H sCR) as D0. unfold opp_stencil in *. destruct (Nat.ltb 2 n), (Nat.even n); cbn [app fold_right]; rewrite <- ?A, <- ?B, <- ?C, <- ?D0; ring. }
  rewrite (OS (trust w') (trust w)) by apply trust_mirror.
  rewrite (OS (fun s => fit w' s i * trust w' s) (fun s => sg * (fit w s (n - 1 - i)%nat * trust w s))) by (intros s; rewrite fit_mirror, trust_mirror by exact Hi; ring).
  assert (SC : forall f, over_stencils n (fun s => sg * f s) = sg * over_stencils n f) by (intros f; unfold over_stencils; induction (stencils n) as [|a l IH]; cbn [fold_right]; [ring|rewrite IH; ring]).
  rewrite SC. unfold Rdiv. ring.
Qed.
End Fit.
End Tables.
