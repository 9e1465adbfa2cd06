(** Residual, Picard system, Picard loop. *)
From Coq Require Import Reals Lra Lia FunctionalExtensionality.
From Verif Require Import Base Options Sum PolyModel EqModel EqSpec EqProof EqProof2 FvModel FvBody FvSpec FvProof2 FvProps WenoModel WenoProof DgModel DgSpec DgProof.
Import List ListNotations.
Open Scope R_scope.

Lemma rows_ok n f g : (forall r, (r < n)%nat -> f r = Ok (g r)) -> exists m, rows n f = Ok m /\ forall r, (r < n)%nat -> m r = g r.
Proof.
  intros H. unfold rows.
  assert (E : exists l, collect n f = Ok l /\ length l = n /\ forall r, (r < n)%nat -> nth r l (fun _ => 0) = g r).
  { induction n as [|n IH]; cbn [collect]; [exists []; repeat split; intros; lia|].
    destruct IH as [l [E [L V]]]; [intros; apply H; lia|]. rewrite E. cbn [bind]. rewrite H by lia. cbn [bind]. eexists. split; [reflexivity|].
    rewrite app_length, L. cbn [length]. split; [lia|]. intros r Hr. destruct (Nat.eq_dec r n) as [-> |Ne].
    - rewrite app_nth2 by lia. rewrite L, Nat.sub_diag. reflexivity.
    - rewrite app_nth1 by lia. apply V. lia. }
  destruct E as [l [E [L V]]]. rewrite E. cbn [bind]. eexists. split; [reflexivity|]. exact V.
Qed.

Section D.
Variable o : options.
Variable ph : phys.
Hypothesis HV : VISCOUS o = true.
Variables WGHTS : nat -> R.
Variables ENDVALS DERVALS DG_DER DG_M : nat -> nat -> R.
Notation N := (N o).
Hypothesis N1 : (1 <= N)%nat.
Notation rhs1 := (rhs1 o ph WGHTS DERVALS DG_DER).
Notation rhs2 := (rhs2 o ph WGHTS DERVALS DG_DER).
Notation obj1 := (obj1 o ph WGHTS DERVALS DG_DER DG_M).
Notation obj2 := (obj2 o ph WGHTS DERVALS DG_DER DG_M).

(** the entries of the Kronecker products *)
Definition U1 (r c : nat) : R := DG_M (r / N) (c / N) * (if Nat.eqb (r mod N) (c mod N) then WGHTS (r mod N) else 0).
Definition U2 (r c : nat) : R := DG_M (r / (N * N)) (c / (N * N)) *
  ((if Nat.eqb (r / N mod N) (c / N mod N) then WGHTS (r / N mod N) else 0) * (if Nat.eqb (r mod N) (c mod N) then WGHTS (r mod N) else 0)).

Lemma kron_U1 : exists k, kron [full N DG_M; diagonal N WGHTS] = Ok k /\ is_mtx k (N * N) (N * N) U1.
Proof.
  destruct (kron2_ok (full N DG_M) (diagonal N WGHTS) N N DG_M N N _ (full_ok N DG_M) (full_ok N _)) as [k [E K]].
  exists k. unfold kron. cbn [rev app kron_rec]. rewrite E. cbn [bind]. split; [reflexivity|]. exact K.
Qed.
Lemma is_mtx_ext k r c f g : is_mtx k r c f -> (forall i j, (i < r)%nat -> (j < c)%nat -> f i j = g i j) -> is_mtx k r c g.
Proof. intros [A [B [C D]]] H. repeat split; auto. intros i j Hi Hj. rewrite <- H by assumption. apply D; assumption. Qed.
Lemma mod_mod_mul a : (a mod (N * N) / N = a / N mod N)%nat /\ ((a mod (N * N)) mod N = a mod N)%nat.
Proof.
  rewrite Nat.mod_mul_r by lia. rewrite (Nat.mul_comm N (a / N mod N)), Nat.add_comm.
  pose proof (Nat.mod_upper_bound a N ltac:(lia)) as B. destruct (divmod N (a / N mod N) (a mod N) B) as [-> ->]. auto.
Qed.
Lemma kron_U2 : exists k, kron [full N DG_M; diagonal N WGHTS; diagonal N WGHTS] = Ok k /\ is_mtx k (N * N * N) (N * N * N) U2.
Proof.
  destruct (kron2_ok (diagonal N WGHTS) (diagonal N WGHTS) N N _ N N _ (full_ok N _) (full_ok N _)) as [k [E K]].
  destruct (kron2_ok (full N DG_M) k N N DG_M (N * N) (N * N) _ (full_ok N DG_M) K) as [k' [E' K']].
  exists k'. unfold kron. cbn [rev app kron_rec]. rewrite E. cbn [bind]. rewrite E'. cbn [bind]. split; [reflexivity|].
  rewrite <- Nat.mul_assoc. eapply is_mtx_ext; [exact K'|]. intros i j Hi Hj. unfold U2. cbv beta.
  destruct (mod_mod_mul i) as [-> ->]. destruct (mod_mod_mul j) as [-> ->]. reflexivity.
Qed.

Lemma U1_row (q : nodal) r k : (r < N * N)%nat -> rsum (N * N) (fun c => U1 r c * q c k) =
  rsum N (fun m => DG_M (r / N) m * WGHTS (r mod N) * q (m * N + r mod N)%nat k).
Proof.
  intros Hr. rewrite rsum_prod. apply rsum_ext. intros m Hm. pose proof (Nat.mod_upper_bound r N ltac:(lia)) as B.
  rewrite (rsum_single N (r mod N)%nat _ B).
  - unfold U1. destruct (divmod N m (r mod N) B) as [-> ->]. rewrite Nat.eqb_refl. reflexivity.
  - intros j Hj Ne. unfold U1. destruct (divmod N m j Hj) as [-> ->]. destruct (Nat.eqb_spec (r mod N) j); [congruence|ring].
Qed.
Lemma divmod3 m i j : (i < N)%nat -> (j < N)%nat -> (((m * N + i) * N + j) / (N * N) = m /\ ((m * N + i) * N + j) / N mod N = i /\ ((m * N + i) * N + j) mod N = j)%nat.
Proof.
  intros Hi Hj. destruct (divmod N (m * N + i) j Hj) as [A B]. destruct (divmod N m i Hi) as [C D].
  rewrite <- Nat.div_div by lia. rewrite A, B, C, D. auto.
Qed.
Lemma U2_row (q : nodal) r k : (r < N * N * N)%nat -> rsum (N * N * N) (fun c => U2 r c * q c k) =
  rsum N (fun m => DG_M (r / (N * N)) m * WGHTS (r / N mod N) * WGHTS (r mod N) * q ((m * N + r / N mod N) * N + r mod N)%nat k).
Proof.
  intros Hr. rewrite rsum_prod, rsum_prod. apply rsum_ext. intros m Hm.
  pose proof (Nat.mod_upper_bound r N ltac:(lia)) as B. pose proof (Nat.mod_upper_bound (r / N) N ltac:(lia)) as B'.
  rewrite (rsum_single N (r / N mod N)%nat _ B'); [rewrite (rsum_single N (r mod N)%nat _ B)|].
  - unfold U2. destruct (divmod3 m (r / N mod N) (r mod N) B' B) as [-> [-> ->]]. rewrite !Nat.eqb_refl. ring.
  - intros j Hj Ne. unfold U2. destruct (divmod3 m (r / N mod N) j B' Hj) as [-> [-> ->]]. destruct (Nat.eqb_spec (r mod N) j); [congruence|ring].
  - intros i Hi Ne. apply rsum_zero. intros j Hj. unfold U2. destruct (divmod3 m i j Hi Hj) as [-> [-> ->]].
    destruct (Nat.eqb_spec (r / N mod N)%nat i); [congruence|ring].
Qed.

(** the right-hand sides succeed *)
Lemma rhs1_ok dt dx q Ww : exists m, rhs1 dt dx q Ww = Ok m /\ forall r, (r < N * N)%nat -> m r = (fun k =>
  let t := (r / N)%nat in let i := (r mod N)%nat in
  ((source ph (q r) k - bdot o (q r) (fun k => derivs1d o DERVALS (fun s => q (t * N + s)%nat) i k / dx) 0 k) * (WGHTS t * WGHTS i)
   - WGHTS t * rsum N (fun j => DG_DER i j * flux o ph (fun _ => 0) (q (t * N + j)%nat) 0 k) / dx) * dt + Ww r k).
Proof.
  apply rows_ok. intros r Hr. cbv zeta. rewrite (Bdot_ok o HV _ _ 0) by lia. reflexivity.
Qed.
Lemma rhs2_ok dt dx dy q Ww : exists m, rhs2 dt dx dy q Ww = Ok m /\ forall r, (r < N * N * N)%nat -> m r = (fun k =>
  let t := (r / (N * N))%nat in let i := (r / N mod N)%nat in let j := (r mod N)%nat in
  let qt := fun s => q (t * (N * N) + s)%nat in
  ((source ph (q r) k - (bdot o (q r) (fun k => derivs2d o DERVALS qt 0 (i * N + j)%nat k / dx) 0 k + bdot o (q r) (fun k => derivs2d o DERVALS qt 1 (i * N + j)%nat k / dy) 1 k)) * (WGHTS t * WGHTS i * WGHTS j)
   - rsum N (fun j' => WGHTS t * DG_DER i j' * (WGHTS (((t * N + j') * N + j) mod N) * flux o ph (fun _ => 0) (q ((t * N + j') * N + j)%nat) 0 k) / dx)
   - WGHTS t * WGHTS i * rsum N (fun m => DG_DER j m * flux o ph (fun _ => 0) (q ((t * N + i) * N + m)%nat) 1 k) / dy) * dt + Ww r k).
Proof.
  apply rows_ok. intros r Hr. cbv zeta. rewrite (Bdot_ok o HV _ _ 0), (Bdot_ok o HV _ _ 1) by lia. reflexivity.
Qed.

(** residual = right-hand side - Kronecker matrix times state *)
Lemma obj1_row dt dx q Ww : exists b ob, rhs1 dt dx q Ww = Ok b /\ obj1 dt dx Ww q = Ok ob /\
  forall r k, (r < N * N)%nat -> ob r k = b r k - rsum (N * N) (fun c => U1 r c * q c k).
Proof.
  destruct (rhs1_ok dt dx q Ww) as [b [E _]]. exists b. unfold DgModel.obj1. rewrite E. cbn [bind]. eexists. split; [reflexivity|]. split; [reflexivity|].
  intros r k Hr. cbv zeta. now rewrite U1_row.
Qed.
Lemma obj2_row dt dx dy q Ww : exists b ob, rhs2 dt dx dy q Ww = Ok b /\ obj2 dt dx dy Ww q = Ok ob /\
  forall r k, (r < N * N * N)%nat -> ob r k = b r k - rsum (N * N * N) (fun c => U2 r c * q c k).
Proof.
  destruct (rhs2_ok dt dx dy q Ww) as [b [E _]]. exists b. unfold DgModel.obj2. rewrite E. cbn [bind]. eexists. split; [reflexivity|]. split; [reflexivity|].
  intros r k Hr. cbv zeta. now rewrite U2_row.
Qed.

(** invertibility of the Kronecker products *)
Hypothesis MI : forall v, (forall i, (i < N)%nat -> rsum N (fun j => DG_M i j * v j) = 0) -> forall j, (j < N)%nat -> v j = 0.
Hypothesis W0 : forall i, (i < N)%nat -> WGHTS i <> 0.
Lemma U1_inj (p q : nodal) k : (forall r, (r < N * N)%nat -> rsum (N * N) (fun c => U1 r c * p c k) = rsum (N * N) (fun c => U1 r c * q c k)) ->
  forall r, (r < N * N)%nat -> p r k = q r k.
Proof.
  intros H r Hr. pose proof (Nat.mod_upper_bound r N ltac:(lia)) as B. set (i := (r mod N)%nat) in *.
  assert (G : p (r / N * N + i)%nat k - q (r / N * N + i)%nat k = 0).
  { apply (MI (fun m => p (m * N + i)%nat k - q (m * N + i)%nat k)); [|apply Nat.div_lt_upper_bound; lia].
    intros t Ht. specialize (H (t * N + i)%nat (pack_lt t i N N Ht B)). rewrite !U1_row in H by (apply pack_lt; assumption).
    destruct (divmod N t i B) as [E1 E2]. rewrite E1, E2 in H.
    apply (Rmult_eq_reg_l (WGHTS i)); [|apply W0; exact B]. rewrite Rmult_0_r, <- rsum_scal.
    apply Rminus_diag_eq in H. rewrite <- rsum_minus in H. etransitivity; [|exact H]. apply rsum_ext. intros m Hm. ring. }
  replace (r / N * N + i)%nat with r in G by (unfold i; rewrite Nat.mul_comm; apply Nat.div_mod; lia). lra.
Qed.
Lemma U2_inj (p q : nodal) k : (forall r, (r < N * N * N)%nat -> rsum (N * N * N) (fun c => U2 r c * p c k) = rsum (N * N * N) (fun c => U2 r c * q c k)) ->
  forall r, (r < N * N * N)%nat -> p r k = q r k.
Proof.
  intros H r Hr. pose proof (Nat.mod_upper_bound r N ltac:(lia)) as B. pose proof (Nat.mod_upper_bound (r / N) N ltac:(lia)) as B'.
  set (j := (r mod N)%nat) in *. set (i := (r / N mod N)%nat) in *.
  assert (Ht : (r / (N * N) < N)%nat) by (apply Nat.div_lt_upper_bound; lia).
  assert (G : p ((r / (N * N) * N + i) * N + j)%nat k - q ((r / (N * N) * N + i) * N + j)%nat k = 0).
  { apply (MI (fun m => p ((m * N + i) * N + j)%nat k - q ((m * N + i) * N + j)%nat k)); [|exact Ht].
    intros t Htt. assert (Hb : ((t * N + i) * N + j < N * N * N)%nat) by (repeat apply pack_lt; assumption).
    specialize (H ((t * N + i) * N + j)%nat Hb). rewrite !U2_row in H by exact Hb.
    destruct (divmod3 t i j B' B) as [E1 [E2 E3]]. rewrite E1, E2, E3 in H.
    apply (Rmult_eq_reg_l (WGHTS i * WGHTS j)); [|apply Rmult_integral_contrapositive_currified; apply W0; assumption]. rewrite Rmult_0_r, <- rsum_scal.
    apply Rminus_diag_eq in H. rewrite <- rsum_minus in H. etransitivity; [|exact H]. apply rsum_ext. intros m Hm. ring. }
  replace ((r / (N * N) * N + i) * N + j)%nat with r in G; [lra|].
  unfold i, j. rewrite <- Nat.div_div by lia. rewrite (Nat.mul_comm (r / N / N) N), <- Nat.div_mod by lia.
  rewrite (Nat.mul_comm (r / N) N), <- Nat.div_mod by lia. reflexivity.
Qed.

(** *** uniform states *)
Lemma bdot_0 Q x d k : (forall i, x i = 0) -> (d < 3)%nat -> bdot o Q x d k = 0.
Proof.
  intros H Hd. assert (x = fun _ => 0) as -> by (apply functional_extensionality; exact H).
  unfold bdot. destruct d as [|[|[|d]]]; try lia; unfold EqModel.B0dot, EqModel.B1dot, EqModel.B2dot, level_sets;
    do 14 (destruct k as [|k]; [try ring; destruct (_ && _)%bool; ring|]); destruct (_ && _)%bool; ring.
Qed.

Hypothesis DR : forall s, (s < N)%nat -> rsum N (DERVALS s) = 0.
Hypothesis DD : forall i, (i < N)%nat -> rsum N (DG_DER i) = 0.
Hypothesis M1 : forall t, (t < N)%nat -> rsum N (DG_M t) = ENDVALS 0%nat t.

Lemma uniform_eq q Q n s : uniform q Q n -> (s < n)%nat -> q s = Q.
Proof. intros U H. apply functional_extensionality. intros k. apply U. exact H. Qed.
Lemma div_lt r : (r < N * N)%nat -> (r / N < N)%nat. Proof. intros H. apply Nat.div_lt_upper_bound; lia. Qed.

Lemma rhs1_uniform dt dx q Q Ww : uniform q Q (N * N) -> (forall k, source ph Q k = 0) ->
  exists m, rhs1 dt dx q Ww = Ok m /\ forall r k, (r < N * N)%nat -> m r k = Ww r k.
Proof.
  intros U S. destruct (rhs1_ok dt dx q Ww) as [m [E F]]. exists m. split; [exact E|]. intros r k Hr. rewrite F by exact Hr. cbv zeta.
  pose proof (div_lt r Hr) as Ht. pose proof (Nat.mod_upper_bound r N ltac:(lia)) as Hi.
  rewrite (uniform_eq q Q _ r U Hr), S, bdot_0; [|intros i|lia].
  - rewrite (rsum_ext N _ (fun j => DG_DER (r mod N) j * flux o ph (fun _ => 0) Q 0 k)) by (intros j Hj; rewrite (uniform_eq q Q _ _ U) by (apply pack_lt; assumption); reflexivity).
    rewrite rsum_scal_r, DD by exact Hi. unfold Rdiv. ring.
  - unfold derivs1d. rewrite (rsum_ext N _ (fun j => DERVALS (r mod N) j * Q i)) by (intros j Hj; rewrite (uniform_eq q Q _ _ U) by (apply pack_lt; assumption); reflexivity).
    rewrite rsum_scal_r, DR by exact Hi. unfold Rdiv. ring.
Qed.
(** rows that depend on the time node only *)
Lemma rhs1_space_uniform dt dx q Q Ww : (forall t i, (t < N)%nat -> (i < N)%nat -> q (t * N + i)%nat = Q t) ->
  exists m, rhs1 dt dx q Ww = Ok m /\ forall r k, (r < N * N)%nat -> m r k = source ph (Q (r / N)%nat) k * (WGHTS (r / N)%nat * WGHTS (r mod N)%nat) * dt + Ww r k.
Proof.
  intros U. destruct (rhs1_ok dt dx q Ww) as [m [E F]]. exists m. split; [exact E|]. intros r k Hr. rewrite F by exact Hr. cbv zeta.
  pose proof (div_lt r Hr) as Ht. pose proof (Nat.mod_upper_bound r N ltac:(lia)) as Hi.
  assert (Er : q r = Q (r / N)%nat) by (rewrite <- (U (r / N)%nat (r mod N)%nat Ht Hi); f_equal; rewrite Nat.mul_comm; apply Nat.div_mod; lia).
  rewrite Er, bdot_0; [|intros i|lia].
  - rewrite (rsum_ext N _ (fun j => DG_DER (r mod N) j * flux o ph (fun _ => 0) (Q (r / N)%nat) 0 k)) by (intros j Hj; rewrite U by assumption; reflexivity).
    rewrite rsum_scal_r, DD by exact Hi. unfold Rdiv. ring.
  - unfold derivs1d. rewrite (rsum_ext N _ (fun j => DERVALS (r mod N) j * Q (r / N)%nat i)) by (intros j Hj; rewrite U by assumption; reflexivity).
    rewrite rsum_scal_r, DR by exact Hi. unfold Rdiv. ring.
Qed.
Lemma rhs2_uniform dt dx dy q Q Ww : uniform q Q (N * N * N) -> (forall k, source ph Q k = 0) ->
  exists m, rhs2 dt dx dy q Ww = Ok m /\ forall r k, (r < N * N * N)%nat -> m r k = Ww r k.
Proof.
  intros U S. destruct (rhs2_ok dt dx dy q Ww) as [m [E F]]. exists m. split; [exact E|]. intros r k Hr. rewrite F by exact Hr. cbv zeta.
  assert (Ht : (r / (N * N) < N)%nat) by (apply Nat.div_lt_upper_bound; lia). pose proof (Nat.mod_upper_bound r N ltac:(lia)) as Hj.
  pose proof (Nat.mod_upper_bound (r / N) N ltac:(lia)) as Hi.
  assert (Dz : forall d i, derivs2d o DERVALS (fun s => q (r / (N * N) * (N * N) + s)%nat) d (r / N mod N * N + r mod N)%nat i = 0).
  { intros d i. unfold derivs2d. destruct (divmod N (r / N mod N) (r mod N) Hj) as [-> ->].
    assert (P : forall a b, (a < N)%nat -> (b < N)%nat -> q (r / (N * N) * (N * N) + (a * N + b))%nat = Q).
    { intros a b Ha Hb. apply (uniform_eq q Q _ _ U). rewrite <- Nat.mul_assoc. apply pack_lt; [exact Ht|apply pack_lt; assumption]. }
    destruct d; [rewrite (rsum_ext N _ (fun j => DERVALS (r / N mod N)%nat j * Q i))|rewrite (rsum_ext N _ (fun j => DERVALS (r mod N) j * Q i))];
      try (intros j Hj'; rewrite P by assumption; reflexivity); rewrite rsum_scal_r, DR by assumption; ring. }
  rewrite (uniform_eq q Q _ r U Hr), S. rewrite !bdot_0; try lia; try (intros i; rewrite Dz; unfold Rdiv; ring).
  rewrite (rsum_ext N _ (fun j' => DG_DER (r / N mod N)%nat j' * (WGHTS (r / (N * N))%nat * (WGHTS (r mod N) * flux o ph (fun _ => 0) Q 0 k) / dx))).
  2:{ intros j' Hj'. destruct (divmod N (r / (N * N) * N + j') (r mod N) Hj) as [_ ->]. rewrite (uniform_eq q Q _ _ U) by (repeat apply pack_lt; assumption). unfold Rdiv. ring. }
  rewrite rsum_scal_r, DD by exact Hi.
  rewrite (rsum_ext N _ (fun m => DG_DER (r mod N) m * flux o ph (fun _ => 0) Q 1 k)) by (intros j' Hj'; rewrite (uniform_eq q Q _ _ U) by (repeat apply pack_lt; assumption); reflexivity).
  rewrite rsum_scal_r, DD by exact Hj. unfold Rdiv. ring.
Qed.

(** the constant state solves the system with the initial condition of the constant state *)
Lemma U1_uniform w Q r k : uniform w Q N -> (r < N * N)%nat ->
  rsum (N * N) (fun c => U1 r c * Q k) = initial_condition1 o WGHTS ENDVALS w r k.
Proof.
  intros U Hr. pose proof (Nat.mod_upper_bound r N ltac:(lia)) as Hi. pose proof (U1_row (fun _ => Q) r k Hr) as E. cbv beta in E. rewrite E. unfold initial_condition1. cbv zeta.
  rewrite (uniform_eq w Q _ _ U Hi). rewrite (rsum_ext N _ (fun m => DG_M (r / N) m * (WGHTS (r mod N) * Q k))) by (intros; ring).
  rewrite rsum_scal_r, M1 by (apply div_lt; exact Hr). ring.
Qed.
Lemma U2_uniform w Q r k : uniform w Q (N * N) -> (r < N * N * N)%nat ->
  rsum (N * N * N) (fun c => U2 r c * Q k) = initial_condition2 o WGHTS ENDVALS w r k.
Proof.
  intros U Hr. pose proof (Nat.mod_upper_bound r N ltac:(lia)) as Hj. pose proof (Nat.mod_upper_bound (r / N) N ltac:(lia)) as Hi.
  pose proof (U2_row (fun _ => Q) r k Hr) as E. cbv beta in E. rewrite E. unfold initial_condition2. cbv zeta.
  rewrite (uniform_eq w Q _ _ U) by (apply pack_lt; assumption).
  rewrite (rsum_ext N _ (fun m => DG_M (r / (N * N)) m * (WGHTS (r / N mod N)%nat * WGHTS (r mod N) * Q k))) by (intros; ring).
  rewrite rsum_scal_r, M1 by (apply Nat.div_lt_upper_bound; lia). ring.
Qed.
End D.

(** ** the Picard loop *)
Section Loop.
Variables (o : options) (DG_TOL : R) (nan_far : option nodal -> option nodal -> bool).
Notation far := (far o DG_TOL nan_far).
Notation picard := (picard o DG_TOL nan_far).

Notation close := (close o DG_TOL).

Lemma far_close n a b : far n (Some a) (Some b) = false <-> close n a b.
Proof.
  unfold DgModel.far. split.
  - intros H r k Hr Hk. destruct (Rle_dec (Rabs (a r k - b r k)) (DG_TOL * (1 + Rabs (b r k)))) as [L|L]; [exact L|]. exfalso.
    assert (T : existsb (fun r => existsb (fun k => gtb (Rabs (a r k - b r k)) (DG_TOL * (1 + Rabs (b r k)))) (seq 0 (V o))) (seq 0 n) = true); [|congruence].
    apply existsb_exists. exists r. split; [apply in_seq; lia|]. apply existsb_exists. exists k. split; [apply in_seq; lia|].
    unfold gtb. destruct (Rlt_dec _ _); [reflexivity|lra].
  - intros H. apply Bool.not_true_iff_false. intros T. apply existsb_exists in T. destruct T as [r [Hr T]]. apply existsb_exists in T. destruct T as [k [Hk T]].
    apply in_seq in Hr, Hk. specialize (H r k ltac:(lia) ltac:(lia)). unfold gtb in T. destruct (Rlt_dec _ _); [lra|discriminate].
Qed.

Lemma iter_S G m : forall q, iter G (S m) q = G (iter G m q).
Proof. induction m as [|m IH]; intros q; [reflexivity|]. cbn [iter] in *. apply IH. Qed.

Lemma picard_iter n step G nc : forall count q, (forall m, (m < count)%nat -> step (Some (iter G m q)) = Ok (Some (G (iter G m q)))) ->
  (forall m, (m < count)%nat -> ~ close n (iter G (S m) q) (iter G m q)) /\ picard n count step nc (Some q) = Ok None \/
  exists m, (m < count)%nat /\ (forall j, (j < m)%nat -> ~ close n (iter G (S j) q) (iter G j q)) /\ close n (iter G (S m) q) (iter G m q) /\
    picard n count step nc (Some q) = Ok (Some (Some (iter G (S m) q))).
Proof.
  induction count as [|c IH]; intros q HG; cbn [DgModel.picard]; [left; split; [intros; lia|reflexivity]|].
  rewrite (HG 0%nat ltac:(lia) : step (Some q) = Ok (Some (G q))). cbn [bind]. destruct (far n (Some (G q)) (Some q)) eqn:F.
  - assert (F' : ~ close n (G q) q) by (rewrite <- far_close; congruence).
    destruct (IH (G q)) as [[A E]|[m [Hm [A [C E]]]]]; [intros m Hm; apply (HG (S m)); lia| |].
    + left. split; [|exact E]. intros [|m] Hm; [exact F'|]. apply (A m). lia.
    + right. exists (S m). split; [lia|]. split; [|split; [exact C|exact E]]. intros [|j] Hj; [exact F'|]. apply (A j). lia.
  - right. exists 0%nat. split; [lia|]. split; [intros; lia|]. split; [apply far_close, F|reflexivity].
Qed.
End Loop.

(** an explicit solver from an inverse of the time operator *)
Section Solver.
Variable o : options.
Notation N := (N o).
Hypothesis N1 : (1 <= N)%nat.
Variables (WGHTS : nat -> R) (DG_M Minv : nat -> nat -> R).
Hypothesis W0 : forall i, (i < N)%nat -> WGHTS i <> 0.
Hypothesis HI : forall i k, (i < N)%nat -> (k < N)%nat -> rsum N (fun j => DG_M i j * Minv j k) = if Nat.eqb i k then 1 else 0.
Definition solver1 (b : nodal) : nodal := fun r k => rsum N (fun m => Minv (r / N)%nat m * b (m * N + r mod N)%nat k) / WGHTS (r mod N)%nat.
Lemma solver1_exact b r k : (r < N * N)%nat -> rsum (N * N) (fun c => U1 o WGHTS DG_M r c * solver1 b c k) = b r k.
Proof.
  intros Hr. rewrite U1_row by assumption. pose proof (Nat.mod_upper_bound r N ltac:(lia)) as B. set (i := (r mod N)%nat) in *.
  rewrite (rsum_ext N _ (fun m => rsum N (fun l => DG_M (r / N) m * Minv m l * b (l * N + i)%nat k))).
  2:{ intros m Hm. unfold solver1. destruct (divmod N m i B) as [-> ->].
      replace (DG_M (r / N)%nat m * WGHTS i * (rsum N (fun m0 => Minv m m0 * b (m0 * N + i)%nat k) / WGHTS i))
        with (DG_M (r / N)%nat m * rsum N (fun m0 => Minv m m0 * b (m0 * N + i)%nat k)) by (field; apply W0; exact B).
      rewrite <- rsum_scal. apply rsum_ext. intros; ring. }
  rewrite rsum_swap. assert (Ht : (r / N < N)%nat) by (apply Nat.div_lt_upper_bound; lia).
  rewrite (rsum_ext N _ (fun l => (if Nat.eqb (r / N) l then 1 else 0) * b (l * N + i)%nat k)) by (intros l Hl; rewrite rsum_scal_r, HI by assumption; reflexivity).
  rewrite (rsum_single N (r / N)%nat _ Ht).
  - rewrite Nat.eqb_refl, Rmult_1_l. f_equal. unfold i. rewrite Nat.mul_comm. symmetry. apply Nat.div_mod. lia.
  - intros l Hl Ne. destruct (Nat.eqb_spec (r / N)%nat l); [congruence|ring].
Qed.
End Solver.
