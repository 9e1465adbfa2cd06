(** Properties C13 (second half), C17, C19, C20 (finite volume part), C53. *)
From Coq Require Import Reals Lra Lia ZArith.
From Verif Require Import Base Options Sum Mat3 GridModel GridSpec GridProof GridProof2 EqModel EqSpec EqProof EqProof2 FvModel FvBody FvProof FvSpec FvProof2.
Import List ListNotations.
Open Scope R_scope.

(** C53: the product with the matrix filled by [block] is what [Bdot] computes, and both are B(Q) x. *)
Theorem bdot_is_block_partial o Q x d : VISCOUS o = true -> (d < 3)%nat ->
  exists r, Bdot o Q x d = Ok r /\ forall k, (k < V o)%nat -> r k = rsum (V o) (fun j => block o Q d k j * x j) /\ r k = noncons o Q x d k.
Proof.
  intros H Hd. exists (bdot o Q x d). split; [apply Bdot_ok; assumption|]. intros k Hk. split; [symmetry; apply block_bdot; assumption|apply bdot_spec; assumption].
Qed.
Print Assumptions bdot_is_block_partial.
(** Without VISCOUS [block] still advects the level sets but [Bdot] writes nothing; its callers read the result. *)
Theorem bdot_is_block_refuted o Q x d : VISCOUS o = false -> is_ub (Bdot o Q x d).
Proof. intros H. unfold Bdot. rewrite H. eexists. reflexivity. Qed.
Print Assumptions bdot_is_block_refuted.

(** C19: [flux] adds the physical flux (every component, every direction) ... *)
Theorem flux_adds_physical_flux o ph ret Q d k : VISCOUS o = true -> MULTI o = false -> (d < 3)%nat -> Q 0%nat <> 0 ->
  flux o ph ret Q d k = ret k + physical_flux o ph Q d k.
Proof. intros H1 H2 Hd Hq. rewrite flux_spec by assumption. now rewrite H2. Qed.
Print Assumptions flux_adds_physical_flux.

(** ... so that the interface flux of two equal states is the physical flux, for each of the three flux functions, and
    the jump term vanishes. [eigabs J 0 = 0] is the only thing asked of the eigendecomposition. *)
Theorem flux_consistent_partial o ph NODES WGHTS FLUX Q d k :
  VISCOUS o = true -> (MULTI o = false \/ k <> mV o) -> (FLUX < 3)%nat -> (d < 3)%nat -> Q 0%nat <> 0 ->
  (forall J x i, (forall j, x j = 0) -> eigabs ph J x i = 0) ->
  (exists f, D o ph NODES WGHTS FLUX Q Q d = Ok f /\ f k / 2 = physical_flux o ph Q d k) /\
  (exists b, Bint o NODES WGHTS Q Q d = Ok b /\ b k = 0).
Proof.
  intros HV HM HF Hd Hq HE. split.
  - destruct (D_ok o ph HV NODES WGHTS FLUX Q Q d HF Hd Hq Hq) as [f [E F]]. exists f. split; [exact E|]. rewrite F.
    replace (MULTI o && (k =? mV o))%bool with false.
    2:{ destruct HM as [-> |HM]; [reflexivity|]. rewrite (proj2 (Nat.eqb_neq k (mV o)) HM). now rewrite Bool.andb_false_r. }
    assert (Z : diss o ph NODES WGHTS FLUX Q Q d k = 0).
    { unfold diss. destruct FLUX as [|[|F']]; [ring| |].
      - apply HE. intros j. ring.
      - apply rsum_zero. intros i Hi. rewrite HE; [ring|]. intros j. ring. }
    rewrite Z. lra.
  - destruct (Bint_ok o HV NODES WGHTS Q Q d Hd) as [b [E [_ B]]]. exists b. split; [exact E|]. apply B. reflexivity.
Qed.
Print Assumptions flux_consistent_partial.

(** With MULTI the concentration flux is assigned instead of added (equations.cpp:46): the interface flux of rho*lambda
    is half the physical flux. *)
Theorem flux_consistent_refuted o ph NODES WGHTS FLUX Q d :
  VISCOUS o = true -> MULTI o = true -> (FLUX < 3)%nat -> (d < 3)%nat -> Q 0%nat <> 0 -> Q (mV o) <> 0 -> Q (2 + d)%nat <> 0 ->
  exists f, D o ph NODES WGHTS FLUX Q Q d = Ok f /\ f (mV o) / 2 = physical_flux o ph Q d (mV o) / 2 /\
    physical_flux o ph Q d (mV o) = Q (mV o) * velocity Q d /\ f (mV o) / 2 <> physical_flux o ph Q d (mV o).
Proof.
  intros HV HM HF Hd Hq H1 H2. destruct (D_ok o ph HV NODES WGHTS FLUX Q Q d HF Hd Hq Hq) as [f [E F]]. exists f. split; [exact E|].
  rewrite F, HM, Nat.eqb_refl. cbn [andb].
  assert (P : physical_flux o ph Q d (mV o) = Q (mV o) * velocity Q d).
  { unfold physical_flux, mV. rewrite HV, HM. destruct (THERMAL o); reflexivity. }
  rewrite P. split; [reflexivity|]. split; [reflexivity|].
  assert (Q (mV o) * velocity Q d <> 0); [|lra]. unfold velocity. apply Rmult_integral_contrapositive_currified; [exact H1|].
  unfold Rdiv. apply Rmult_integral_contrapositive_currified; [exact H2|]. apply Rinv_neq_0_compat, Hq.
Qed.
Print Assumptions flux_consistent_refuted.

Section FV.
Variable o : options.
Variable ph : phys.
Variables NODES WGHTS : nat -> R.
Variables ENDVALS DERVALS : nat -> nat -> R.
Variables (SOURCES TIME : bool) (FLUX : nat) (dt : R) (dX : nat -> R).
Notation wt := (tw WGHTS TIME dt).
Notation nt := (nt_of (N o) TIME).
Notation fv_step := (fv_step o ph NODES WGHTS ENDVALS DERVALS SOURCES TIME FLUX dt dX).
Notation numflux := (numflux o ph NODES WGHTS FLUX).
Notation volume1 := (volume1 o ph WGHTS DERVALS SOURCES).
Notation volume2 := (volume2 o ph WGHTS DERVALS SOURCES).
Notation fv1 := (fv1 o ph NODES WGHTS ENDVALS DERVALS SOURCES FLUX).
Notation fv2 := (fv2 o ph NODES WGHTS ENDVALS DERVALS SOURCES FLUX).
Notation out1 := (out1 o ph NODES WGHTS ENDVALS FLUX).
Notation in1 := (in1 o ph NODES WGHTS ENDVALS FLUX).
Notation out2 := (out2 o ph NODES WGHTS ENDVALS FLUX).
Notation in2 := (in2 o ph NODES WGHTS ENDVALS FLUX).

(** the configuration in which the code runs: VISCOUS, one of the three flux functions, non-zero spacings *)
Definition runs : Prop := VISCOUS o = true /\ (FLUX < 3)%nat /\ dX 0%nat <> 0 /\ dX 1%nat <> 0.

(** arrays of the sizes the code allocates, holding the given values *)
Definition holds1 (nx : nat) (u : buf vec) (rec : buf nodal) (mask : buf bool) x q m : Prop :=
  blen u = nx /\ (forall c, (c < nx)%nat -> bdat u c = Some (x c)) /\
  (forall i t, (i < nx + 2)%nat -> (t < nt)%nat -> rd rec (i * nt + t) = Ok (q i t)) /\
  (forall i, (i < nx + 2)%nat -> rd mask i = Ok (m i)).
Definition holds2 (nx ny : nat) (u : buf vec) (rec : buf nodal) (mask : buf bool) x q m : Prop :=
  blen u = (nx * ny)%nat /\ (forall a b, (a < nx)%nat -> (b < ny)%nat -> bdat u (a * ny + b)%nat = Some (x a b)) /\
  (forall i j t, (i < nx + 2)%nat -> (j < ny + 2)%nat -> (t < nt)%nat -> rd rec ((i * (ny + 2) + j) * nt + t) = Ok (q i j t)) /\
  (forall i j, (i < nx + 2)%nat -> (j < ny + 2)%nat -> rd mask (i * (ny + 2) + j) = Ok (m i j)).

(** [fv_launcher] computes the finite volume formula in every cell, for every mask; it never fails. *)
Theorem fv_launcher_1d nx u rec mask x q m : runs -> holds1 nx u rec mask x q m ->
  exists u' x', fv_step u rec mask [nx] = Ok u' /\ blen u' = nx /\ (forall c, (c < nx)%nat -> bdat u' c = Some (x' c)) /\
    forall c k, (c < nx)%nat -> x' c k = fv1 nt wt (dX 0%nat) q m x c k.
Proof. intros [A [B [C _]]] [H1 [H2 [H3 H4]]]. exact (fv_step_1d o ph A NODES WGHTS ENDVALS DERVALS SOURCES TIME FLUX dt B dX u rec mask nx q m x C H1 H2 H3 H4). Qed.
Theorem fv_launcher_2d nx ny u rec mask x q m : runs -> holds2 nx ny u rec mask x q m ->
  exists u' x', fv_step u rec mask [nx; ny] = Ok u' /\ blen u' = (nx * ny)%nat /\
    (forall a b, (a < nx)%nat -> (b < ny)%nat -> bdat u' (a * ny + b)%nat = Some (x' a b)) /\
    forall a b k, (a < nx)%nat -> (b < ny)%nat -> x' a b k = fv2 nt wt (dX 0%nat) (dX 1%nat) q m x a b k.
Proof. intros [A [B [C C']]] [H1 [H2 [H3 H4]]]. exact (fv_step_2d o ph A NODES WGHTS ENDVALS DERVALS SOURCES TIME FLUX dt B dX u rec mask nx ny q m x C C' H1 H2 H3 H4). Qed.

(** *** conservation *)
Lemma noncons_conserved Q y d k : VISCOUS o = true -> conserved o k -> noncons o Q y d k = 0.
Proof.
  intros HV H. pose proof (V_big o HV) as VB. unfold noncons, conserved in *.
  destruct H as [H|H].
  - rewrite (proj2 (Nat.leb_gt 5 k)) by lia. cbn [andb]. rewrite (proj2 (Nat.leb_gt (V o - LSET o) k)) by lia. reflexivity.
  - rewrite (proj2 (Nat.ltb_ge k 14)) by lia. rewrite Bool.andb_false_r. rewrite (proj2 (Nat.leb_gt (V o - LSET o) k)) by lia. reflexivity.
Qed.
Lemma jump_conserved qL qR d k : VISCOUS o = true -> conserved o k -> jump o NODES WGHTS qL qR d k = 0.
Proof. intros HV H. unfold jump. apply rsum_zero. intros i Hi. rewrite noncons_conserved by assumption. ring. Qed.

Definition flux1 (l r : nodal) (k : nat) : R := numflux (endpts1d o ENDVALS l 1) (endpts1d o ENDVALS r 0) 0 k.
Definition flux2 (d : nat) (l r : nodal) (k : nat) : R :=
  rsum (N o) (fun s => WGHTS s * numflux (endpts2d o ENDVALS l d 1 s) (endpts2d o ENDVALS r d 0 s) d k).
Definition sources1 (q : nodal) (k : nat) : R := rsum (N o) (fun s => WGHTS s * src ph SOURCES (q s) k).
Definition sources2 (q : nodal) (k : nat) : R :=
  rsum (N o) (fun a => rsum (N o) (fun b => WGHTS a * WGHTS b * src ph SOURCES (q (a * N o + b)%nat) k)).

Lemma out1_cons l r k : VISCOUS o = true -> conserved o k -> out1 l r k = flux1 l r k /\ in1 l r k = flux1 l r k.
Proof. intros HV H. unfold FvSpec.out1, FvSpec.in1, flux1. rewrite jump_conserved by assumption. split; lra. Qed.
Lemma out2_cons d l r k : VISCOUS o = true -> conserved o k -> out2 d l r k = flux2 d l r k /\ in2 d l r k = flux2 d l r k.
Proof. intros HV H. unfold FvSpec.out2, FvSpec.in2, flux2. split; apply rsum_ext; intros s Hs; rewrite jump_conserved by assumption; lra. Qed.
Lemma volume1_cons dx q k : VISCOUS o = true -> conserved o k -> volume1 dx q k = sources1 q k.
Proof. intros HV H. apply rsum_ext. intros s Hs. rewrite noncons_conserved by assumption. unfold Rdiv. ring. Qed.
Lemma volume2_cons dx dy q k : VISCOUS o = true -> conserved o k -> volume2 dx dy q k = sources2 q k.
Proof. intros HV H. apply rsum_ext. intros a Ha. apply rsum_ext. intros b Hb. cbv zeta. rewrite !noncons_conserved by assumption. unfold Rdiv. ring. Qed.

Definition total1 (nx : nat) (x : nat -> vec) (k : nat) : R := rsum nx (fun c => x c k).
Definition total2 (nx ny : nat) (x : nat -> nat -> vec) (k : nat) : R := rsum nx (fun a => rsum ny (fun b => x a b k)).

(** C17: whatever the mask, the total of a conserved component changes by the sources inside and by the fluxes through
    the two ends of the domain, and by nothing else. *)
Theorem fv_conserves_1d nx u rec mask x q m : runs -> holds1 nx u rec mask x q m ->
  exists u' x', fv_step u rec mask [nx] = Ok u' /\ blen u' = nx /\ (forall c, (c < nx)%nat -> bdat u' c = Some (x' c)) /\
    forall k, conserved o k -> total1 nx x' k = total1 nx x k
      + rsum nt (fun t => wt t * rsum nx (fun c => on (m (S c)) (sources1 (q (S c) t) k)))
      + rsum nt (fun t => wt t / dX 0%nat * (on (m 0%nat && m 1%nat) (flux1 (q 0%nat t) (q 1%nat t) k)
                                            - on (m nx && m (S nx)) (flux1 (q nx t) (q (S nx) t) k))).
Proof.
  intros HR HH. destruct (fv_launcher_1d nx u rec mask x q m HR HH) as [u' [x' [E [L [Dd F]]]]]. exists u', x'.
  split; [exact E|]. split; [exact L|]. split; [exact Dd|]. intros k Hk. destruct HR as [HV _]. unfold total1.
  rewrite (rsum_ext nx (fun c => x' c k) (fun c => x c k + rsum nt (fun t => wt t * on (m (S c)) (sources1 (q (S c) t) k))
     - rsum nt (fun t => wt t / dX 0%nat * on (m (S c) && m (S (S c))) (flux1 (q (S c) t) (q (S (S c)) t) k) - wt t / dX 0%nat * on (m c && m (S c)) (flux1 (q c t) (q (S c) t) k)))).
  2:{ intros c Hc. rewrite F by exact Hc. unfold FvSpec.fv1. f_equal; [f_equal|].
      - apply rsum_ext. intros t Ht. now rewrite volume1_cons.
      - apply rsum_ext. intros t Ht. destruct (out1_cons (q (S c) t) (q (S (S c)) t) k HV Hk) as [-> _]. destruct (out1_cons (q c t) (q (S c) t) k HV Hk) as [_ ->]. ring. }
  rewrite rsum_minus, rsum_plus. unfold Rminus at 1. rewrite (rsum_swap nx nt (fun c t => wt t * _)). f_equal; [f_equal|].
  - apply rsum_ext. intros t Ht. now rewrite rsum_scal.
  - rewrite rsum_swap, <- rsum_opp. apply rsum_ext. intros t Ht.
    rewrite (rsum_telescope nx (fun c => wt t / dX 0%nat * on (m c && m (S c)) (flux1 (q c t) (q (S c) t) k))). ring.
Qed.

Theorem fv_conserves_2d nx ny u rec mask x q m : runs -> holds2 nx ny u rec mask x q m ->
  exists u' x', fv_step u rec mask [nx; ny] = Ok u' /\ blen u' = (nx * ny)%nat /\
    (forall a b, (a < nx)%nat -> (b < ny)%nat -> bdat u' (a * ny + b)%nat = Some (x' a b)) /\
    forall k, conserved o k -> total2 nx ny x' k = total2 nx ny x k
      + rsum nt (fun t => wt t * rsum nx (fun a => rsum ny (fun b => on (m (S a) (S b)) (sources2 (q (S a) (S b) t) k))))
      + rsum nt (fun t => wt t / dX 0%nat * rsum ny (fun b => on (m 0%nat (S b) && m 1%nat (S b)) (flux2 0 (q 0%nat (S b) t) (q 1%nat (S b) t) k)
                                                            - on (m nx (S b) && m (S nx) (S b)) (flux2 0 (q nx (S b) t) (q (S nx) (S b) t) k)))
      + rsum nt (fun t => wt t / dX 1%nat * rsum nx (fun a => on (m (S a) 0%nat && m (S a) 1%nat) (flux2 1 (q (S a) 0%nat t) (q (S a) 1%nat t) k)
                                                            - on (m (S a) ny && m (S a) (S ny)) (flux2 1 (q (S a) ny t) (q (S a) (S ny) t) k))).
Proof.
  intros HR HH. destruct (fv_launcher_2d nx ny u rec mask x q m HR HH) as [u' [x' [E [L [Dd F]]]]]. exists u', x'.
  split; [exact E|]. split; [exact L|]. split; [exact Dd|]. intros k Hk. destruct HR as [HV _]. unfold total2.
  set (X := fun t i j => wt t / dX 0%nat * on (m i j && m (S i) j) (flux2 0 (q i j t) (q (S i) j t) k)).
  set (Y := fun t i j => wt t / dX 1%nat * on (m i j && m i (S j)) (flux2 1 (q i j t) (q i (S j) t) k)).
  rewrite (rsum_ext nx (fun a => rsum ny (fun b => x' a b k)) (fun a => rsum ny (fun b => x a b k)
     + rsum ny (fun b => rsum nt (fun t => wt t * on (m (S a) (S b)) (sources2 (q (S a) (S b) t) k)))
     - rsum ny (fun b => rsum nt (fun t => X t (S a) (S b) - X t a (S b)))
     - rsum ny (fun b => rsum nt (fun t => Y t (S a) (S b) - Y t (S a) b)))).
  2:{ intros a Ha. rewrite <- rsum_plus, <- !rsum_minus. apply rsum_ext. intros b Hb. rewrite F by assumption. unfold FvSpec.fv2. f_equal; [f_equal; [f_equal|]|].
      - apply rsum_ext. intros t Ht. now rewrite volume2_cons.
      - apply rsum_ext. intros t Ht. destruct (out2_cons 0 (q (S a) (S b) t) (q (S (S a)) (S b) t) k HV Hk) as [-> _]. destruct (out2_cons 0 (q a (S b) t) (q (S a) (S b) t) k HV Hk) as [_ ->]. unfold X. ring.
      - apply rsum_ext. intros t Ht. destruct (out2_cons 1 (q (S a) (S b) t) (q (S a) (S (S b)) t) k HV Hk) as [-> _]. destruct (out2_cons 1 (q (S a) b t) (q (S a) (S b) t) k HV Hk) as [_ ->]. unfold Y. ring. }
  rewrite !rsum_minus, rsum_plus. unfold Rminus. f_equal; [f_equal; [f_equal|]|].
  - rewrite (rsum_ext nx _ _ (fun a _ => rsum_swap ny nt _)). rewrite rsum_swap. apply rsum_ext. intros t Ht. rewrite <- rsum_scal. apply rsum_ext. intros a Ha. now rewrite rsum_scal.
  - rewrite <- rsum_opp. rewrite (rsum_ext nx _ (fun a => rsum nt (fun t => rsum ny (fun b => - (X t (S a) (S b) - X t a (S b)))))).
    2:{ intros a Ha. rewrite rsum_swap, <- rsum_opp. apply rsum_ext. intros t Ht. now rewrite rsum_opp. }
    rewrite rsum_swap. apply rsum_ext. intros t Ht. rewrite rsum_swap, <- rsum_scal. apply rsum_ext. intros b Hb.
    rewrite rsum_opp, (rsum_telescope nx (fun a => X t a (S b))). unfold X. ring.
  - rewrite <- rsum_opp. rewrite (rsum_ext nx _ (fun a => rsum nt (fun t => rsum ny (fun b => - (Y t (S a) (S b) - Y t (S a) b))))).
    2:{ intros a Ha. rewrite rsum_swap, <- rsum_opp. apply rsum_ext. intros t Ht. now rewrite rsum_opp. }
    rewrite rsum_swap. apply rsum_ext. intros t Ht. rewrite <- rsum_scal. apply rsum_ext. intros a Ha.
    rewrite rsum_opp, (rsum_telescope ny (fun b => Y t (S a) b)). unfold Y. ring.
Qed.

(** *** uniform states *)
Definition uniform (q : nodal) (Q : vec) (n : nat) : Prop := forall s, (s < n)%nat -> forall k, q s k = Q k.

Lemma noncons_0 Q y d k : (forall i, y i = 0) -> noncons o Q y d k = 0.
Proof. intros H. unfold noncons, sum3. rewrite !H. destruct (_ && _)%bool; [ring|]. destruct (_ && _)%bool; ring. Qed.
Lemma numflux_eq qL qR Q d k : (forall i, qL i = Q i) -> (forall i, qR i = Q i) -> numflux qL qR d k = numflux Q Q d k.
Proof.
  intros HL HR. replace qL with Q; [replace qR with Q; [reflexivity|]|]; apply FunctionalExtensionality.functional_extensionality; intros i; symmetry; auto.
Qed.
Lemma jump_0 qL qR d k : (forall i, qL i = qR i) -> jump o NODES WGHTS qL qR d k = 0.
Proof. intros H. unfold jump. apply rsum_zero. intros i Hi. rewrite noncons_0; [ring|]. intros j. rewrite H. ring. Qed.

(** what the basis is asked: its values at each end sum to one and its derivatives at each node sum to zero
    (LegendreProps proves it of the Lagrange basis) *)
Definition partition : Prop := (forall e, (e < 2)%nat -> rsum (N o) (ENDVALS e) = 1) /\ (forall s, (s < N o)%nat -> rsum (N o) (DERVALS s) = 0).

Lemma end1_uniform q Q e k : partition -> (e < 2)%nat -> uniform q Q (N o) -> endpts1d o ENDVALS q e k = Q k.
Proof.
  intros [P _] He U. unfold endpts1d. rewrite (rsum_ext (N o) _ (fun r => ENDVALS e r * Q k)) by (intros; rewrite U by assumption; reflexivity).
  rewrite rsum_scal_r, P by exact He. ring.
Qed.
Lemma end2_uniform q Q d e s k : partition -> (e < 2)%nat -> (s < N o)%nat -> uniform q Q (N o * N o) -> endpts2d o ENDVALS q d e s k = Q k.
Proof.
  intros [P _] He Hs U. unfold endpts2d.
  destruct d; [rewrite (rsum_ext (N o) _ (fun r => ENDVALS e r * Q k)) by (intros r Hr; rewrite U by (apply pack_bound; assumption); reflexivity)
              |rewrite (rsum_ext (N o) _ (fun r => ENDVALS e r * Q k)) by (intros r Hr; rewrite U by (apply pack_bound; assumption); reflexivity)];
  rewrite rsum_scal_r, P by exact He; ring.
Qed.
Lemma der1_uniform q Q s k : partition -> (s < N o)%nat -> uniform q Q (N o) -> derivs1d o DERVALS q s k = 0.
Proof.
  intros [_ P] Hs U. unfold derivs1d. rewrite (rsum_ext (N o) _ (fun r => DERVALS s r * Q k)) by (intros; rewrite U by assumption; reflexivity).
  rewrite rsum_scal_r, P by exact Hs. ring.
Qed.
Lemma der2_uniform q Q d s k : partition -> (s < N o * N o)%nat -> uniform q Q (N o * N o) -> derivs2d o DERVALS q d s k = 0.
Proof.
  intros [_ P] Hs U. unfold derivs2d. assert (N0 : (N o <> 0)%nat) by (intros Z; rewrite Z in Hs; lia).
  assert (A : (s / N o < N o)%nat) by (apply Nat.div_lt_upper_bound; assumption). assert (B : (s mod N o < N o)%nat) by (apply Nat.mod_upper_bound; assumption).
  destruct d; [rewrite (rsum_ext (N o) _ (fun r => DERVALS (s / N o)%nat r * Q k)) by (intros r Hr; rewrite U by (apply pack_bound; assumption); reflexivity)
              |rewrite (rsum_ext (N o) _ (fun r => DERVALS (s mod N o) r * Q k)) by (intros r Hr; rewrite U by (apply pack_bound; assumption); reflexivity)];
  rewrite rsum_scal_r, P by assumption; ring.
Qed.

(** C20: blocks that are constant in space, with a state of vanishing source, leave every cell unchanged whose two faces
    are both evaluated (or both not). *)
Theorem fv_uniform_1d nx u rec mask x q m Q : runs -> partition -> holds1 nx u rec mask x q m ->
  (forall i t, uniform (q i t) (Q t) (N o)) -> (forall t k, src ph SOURCES (Q t) k = 0) ->
  exists u' x', fv_step u rec mask [nx] = Ok u' /\ (forall c, (c < nx)%nat -> bdat u' c = Some (x' c)) /\
    forall c, (c < nx)%nat -> m c = m (S (S c)) -> forall k, x' c k = x c k.
Proof.
  intros HR HP HH U Z. destruct (fv_launcher_1d nx u rec mask x q m HR HH) as [u' [x' [E [L [Dd F]]]]]. exists u', x'.
  split; [exact E|]. split; [exact Dd|]. intros c Hc M k. rewrite F by exact Hc. unfold FvSpec.fv1.
  rewrite (rsum_zero nt (fun t => wt t * on (m (S c)) _)).
  2:{ intros t Ht. unfold on. destruct (m (S c)); [|ring]. unfold FvSpec.volume1. rewrite rsum_zero; [ring|]. intros s Hs.
      rewrite noncons_0 by (intros i; apply (der1_uniform _ (Q t)); auto). replace (q (S c) t s) with (Q t).
      - rewrite Z. unfold Rdiv. ring.
      - apply FunctionalExtensionality.functional_extensionality. intros i. symmetry. apply U, Hs. }
  assert (I : forall t i, out1 (q i t) (q (S i) t) k = numflux (Q t) (Q t) 0 k /\ in1 (q i t) (q (S i) t) k = numflux (Q t) (Q t) 0 k).
  { intros t i. unfold FvSpec.out1, FvSpec.in1. rewrite jump_0 by (intros j; rewrite !(end1_uniform _ (Q t)) by auto; reflexivity).
    rewrite (numflux_eq _ _ (Q t)) by (intros j; apply end1_uniform; auto). split; lra. }
  rewrite (rsum_zero nt (fun t => wt t / dX 0%nat * _)).
  2:{ intros t Ht. destruct (I t (S c)) as [-> _]. destruct (I t c) as [_ ->]. rewrite <- M. rewrite (Bool.andb_comm (m c)). ring. }
  ring.
Qed.

Theorem fv_uniform_2d nx ny u rec mask x q m Q : runs -> partition -> holds2 nx ny u rec mask x q m ->
  (forall i j t, m i j = true -> uniform (q i j t) (Q t) (N o * N o)) -> (forall t k, src ph SOURCES (Q t) k = 0) ->
  exists u' x', fv_step u rec mask [nx; ny] = Ok u' /\ (forall a b, (a < nx)%nat -> (b < ny)%nat -> bdat u' (a * ny + b)%nat = Some (x' a b)) /\
    forall a b, (a < nx)%nat -> (b < ny)%nat -> m a (S b) = m (S (S a)) (S b) -> m (S a) b = m (S a) (S (S b)) -> forall k, x' a b k = x a b k.
Proof.
  intros HR HP HH U Z. destruct (fv_launcher_2d nx ny u rec mask x q m HR HH) as [u' [x' [E [L [Dd F]]]]]. exists u', x'.
  split; [exact E|]. split; [exact Dd|]. intros a b Ha Hb M1 M2 k. rewrite F by assumption. unfold FvSpec.fv2.
  rewrite (rsum_zero nt (fun t => wt t * on (m (S a) (S b)) _)).
  2:{ intros t Ht. unfold on. destruct (m (S a) (S b)) eqn:M0; [|ring]. unfold FvSpec.volume2. rewrite rsum_zero; [ring|]. intros i Hi. apply rsum_zero. intros j Hj.
      assert (B : (i * N o + j < N o * N o)%nat) by (apply pack_bound; assumption). cbv zeta.
      rewrite !noncons_0 by (intros; apply (der2_uniform _ (Q t)); auto). replace (q (S a) (S b) t (i * N o + j)%nat) with (Q t).
      - rewrite Z. unfold Rdiv. ring.
      - apply FunctionalExtensionality.functional_extensionality. intros r. symmetry. apply (U (S a) (S b) t M0), B. }
  assert (I : forall d t i j i' j', m i j = true -> m i' j' = true -> out2 d (q i j t) (q i' j' t) k = rsum (N o) (fun s => WGHTS s * numflux (Q t) (Q t) d k) /\ in2 d (q i j t) (q i' j' t) k = rsum (N o) (fun s => WGHTS s * numflux (Q t) (Q t) d k)).
  { intros d t i j i' j' Mi Mj. unfold FvSpec.out2, FvSpec.in2. split; apply rsum_ext; intros s Hs;
    (rewrite jump_0 by (intros r; rewrite !(end2_uniform _ (Q t)) by auto; reflexivity));
    rewrite (numflux_eq _ _ (Q t)) by (intros r; apply end2_uniform; auto); lra. }
  rewrite (rsum_zero nt (fun t => wt t / dX 0%nat * _)).
  2:{ intros t Ht. rewrite <- M1. destruct (m (S a) (S b)) eqn:M0, (m a (S b)) eqn:Ml; cbn [andb on]; try ring. symmetry in M1.
      destruct (I 0%nat t (S a) (S b) (S (S a)) (S b) M0 M1) as [-> _]. destruct (I 0%nat t a (S b) (S a) (S b) Ml M0) as [_ ->]. ring. }
  rewrite (rsum_zero nt (fun t => wt t / dX 1%nat * _)).
  2:{ intros t Ht. rewrite <- M2. destruct (m (S a) (S b)) eqn:M0, (m (S a) b) eqn:Ml; cbn [andb on]; try ring. symmetry in M2.
      destruct (I 1%nat t (S a) (S b) (S a) (S (S b)) M0 M2) as [-> _]. destruct (I 1%nat t (S a) b (S a) (S b) Ml M0) as [_ ->]. ring. }
  ring.
Qed.

(** *** masks: C13, second half. With the mask that [extend_mask] builds, every cell of the original mask gets its volume
    term and the fluxes through all its faces: the value is the one an all-true mask gives. *)
Definition everywhere (_ : nat) : bool := true.
Theorem masked_cells_get_all_faces_1d nx u rec (mask0 maskb : buf bool) m0 x q : runs -> (0 < nx)%nat ->
  blen mask0 = nx -> (forall i, (i < nx)%nat -> bdat mask0 i = Some (m0 i)) -> blen maskb = (nx + 2)%nat ->
  blen u = nx -> (forall c, (c < nx)%nat -> bdat u c = Some (x c)) ->
  (forall i t, (i < nx + 2)%nat -> (t < nt)%nat -> rd rec (i * nt + t) = Ok (q i t)) ->
  exists mask u' x', extend_mask mask0 maskb [nx] = Ok mask /\ fv_step u rec mask [nx] = Ok u' /\
    (forall c, (c < nx)%nat -> bdat u' c = Some (x' c)) /\
    forall c k, (c < nx)%nat -> m0 c = true -> x' c k = fv1 nt wt (dX 0%nat) q everywhere x c k.
Proof.
  intros HR Hn L0 D0 Lb Lu Du Hq. destruct (extend_mask1_ok nx mask0 m0 L0 D0 maskb Hn Lb) as [mask [EM [LM [v [HV [HN [V0 V1]]]]]]].
  destruct (fv_launcher_1d nx u rec mask x q v HR) as [u' [x' [E [L [Dd F]]]]].
  { repeat split; auto. intros i Hi. apply rd_ok; [lia|]. apply HV. lia. }
  exists mask, u', x'. split; [exact EM|]. split; [exact E|]. split; [exact Dd|]. intros c k Hc Mc. rewrite F by exact Hc.
  assert (T : forall i, (i < nx)%nat -> (i = c \/ S i = c \/ i = S c)%nat -> v (S i) = true).
  { intros i Hi Hic. rewrite <- Nat.add_1_r. apply HN; [exact Hi|]. exists c. split; [exact Hc|]. split; [exact Mc|]. lia. }
  assert (A : v (S c) = true) by (apply T; auto).
  assert (B : v c = true) by (destruct c as [|c]; [rewrite V0; exact A|apply T; lia]).
  assert (C : v (S (S c)) = true).
  { destruct (Nat.eq_dec (S c) nx) as [Q|Q]; [|apply T; lia]. replace (S (S c)) with (nx + 1)%nat by lia. rewrite V1, <- Q. exact A. }
  unfold FvSpec.fv1, everywhere. rewrite A, B, C. reflexivity.
Qed.

Theorem masked_cells_get_all_faces_2d nx ny u rec (mask0 maskb : buf bool) m0 x q : runs -> (0 < nx)%nat -> (0 < ny)%nat ->
  blen mask0 = (nx * ny)%nat -> (forall i j, (i < nx)%nat -> (j < ny)%nat -> bdat mask0 (i * ny + j)%nat = Some (m0 i j)) -> blen maskb = ((nx + 2) * (ny + 2))%nat ->
  blen u = (nx * ny)%nat -> (forall a b, (a < nx)%nat -> (b < ny)%nat -> bdat u (a * ny + b)%nat = Some (x a b)) ->
  (forall i j t, (i < nx + 2)%nat -> (j < ny + 2)%nat -> (t < nt)%nat -> rd rec ((i * (ny + 2) + j) * nt + t) = Ok (q i j t)) ->
  exists mask u' x', extend_mask mask0 maskb [nx; ny] = Ok mask /\ fv_step u rec mask [nx; ny] = Ok u' /\
    (forall a b, (a < nx)%nat -> (b < ny)%nat -> bdat u' (a * ny + b)%nat = Some (x' a b)) /\
    forall a b k, (a < nx)%nat -> (b < ny)%nat -> m0 a b = true -> x' a b k = fv2 nt wt (dX 0%nat) (dX 1%nat) q (fun _ _ => true) x a b k.
Proof.
  intros HR Hx Hy L0 D0 Lb Lu Du Hq. destruct (extend_mask2_ok nx ny mask0 m0 Hx Hy L0 D0 maskb Lb) as [mask [EM [LM [v [HV HN]]]]].
  destruct (fv_launcher_2d nx ny u rec mask x q v HR) as [u' [x' [E [L [Dd F]]]]].
  { repeat split; auto. intros i j Hi Hj. apply rd_ok; [rewrite LM; apply pack_bound; assumption|]. apply HV; lia. }
  exists mask, u', x'. split; [exact EM|]. split; [exact E|]. split; [exact Dd|]. intros a b k Ha Hb Mc. rewrite F by assumption.
  assert (T : forall i j, (i < nx + 2)%nat -> (j < ny + 2)%nat -> (Z.abs (Z.of_nat i - 1 - Z.of_nat a) + Z.abs (Z.of_nat j - 1 - Z.of_nat b) <= 1)%Z -> v i j = true).
  { intros i j Hi Hj Hd. apply HN; [lia|lia|]. exists a, b. auto. }
  unfold FvSpec.fv2. rewrite !T by lia. reflexivity.
Qed.
End FV.
Print Assumptions fv_launcher_1d.
Print Assumptions fv_launcher_2d.
Print Assumptions fv_conserves_1d.
Print Assumptions fv_conserves_2d.
Print Assumptions fv_uniform_1d.
Print Assumptions fv_uniform_2d.
Print Assumptions masked_cells_get_all_faces_1d.
Print Assumptions masked_cells_get_all_faces_2d.

(** ** concrete cases *)
Definition gas : phys := mkphys (fun Q => Q 1%nat) (fun _ _ _ => 0) (fun _ p => p) 0 (fun _ _ => 0) (fun _ _ => 1) (fun _ _ _ _ => 0) (fun _ x => x).
Example runs_shipped : runs shipped 0 (fun _ => 1). Proof. repeat split; cbn; lra || lia. Qed.
Example conserved_shipped : conserved shipped 0 /\ conserved shipped 1 /\ conserved shipped 4 /\ ~ conserved shipped 5 /\ ~ conserved shipped 14.
Proof. unfold conserved. cbn. lia. Qed.
Example eigabs_zero : forall J x i, (forall j, x j = 0) -> eigabs gas J x i = 0. Proof. intros J x i H. apply H. Qed.
Example partition_met : partition shipped (fun e r => if Nat.eqb e r then 1 else 0) (fun s r => if Nat.eqb r 0 then -1 else 1).
Proof. split; [intros [|[|e]] He|intros [|[|s]] Hs]; cbn in *; lra || lia. Qed.
Example refuted_met : let o := mkopt true false true 2 true false 2 in VISCOUS o = true /\ MULTI o = true /\ (fun _ : nat => 1) (mV o) <> 0. Proof. cbn. repeat split; lra. Qed.
(** a two-cell grid with all four cells of the extended mask set: all hypotheses hold, and mass really moves *)
Definition blk0 (c : R) : nodal := fun _ k => match k with O => 1 | 1%nat => c | 2%nat => c | _ => 0 end.
Example holds_met : holds1 shipped true 2 (mkbuf 2 (fun _ => Some (fun _ => 1))) (mkbuf 8 (fun a => Some (blk0 (INR (a / 2))))) (mkbuf 4 (fun _ => Some true))
  (fun _ _ => 1) (fun i t => blk0 (INR i)) (fun _ => true).
Proof.
  repeat split; auto.
  - intros i t Hi Ht. cbn in Ht, Hi. apply rd_ok; cbn [blen]; [cbn; lia|]. cbn [bdat]. do 3 f_equal. cbn [nt_of shipped N]. rewrite Nat.div_add_l, Nat.div_small by lia. lia.
  - intros i Hi. apply rd_ok; cbn; [lia|reflexivity].
Qed.
