(** The equations and the numerical fluxes under mirror images. *)
From Coq Require Import Reals Lia Lra ZArith FunctionalExtensionality.
From Verif Require Import Base Options Sum Mat3 EqModel EqSpec FvModel FvBody FvSpec RefSpec MirrorSpec.
Import List ListNotations.
Open Scope R_scope.

Lemma sign_sq o k : sign o k * sign o k = 1.
Proof. do 15 (destruct k as [|k]; [cbn; try destruct (THERMAL o); ring|]). cbn. ring. Qed.
Lemma mirror_mirror o q : mirror o (mirror o q) = q.
Proof. apply functional_extensionality. intros k. unfold mirror. rewrite <- Rmult_assoc, sign_sq. ring. Qed.

Section Mirror.
Variable o : options.
Variable ph : phys.
Variables NODES WGHTS : nat -> R.
Variables ENDVALS DERVALS : nat -> nat -> R.
Notation sg := (sign o).
Notation T := (mirror o).
Variable FLUX : nat.
(** what the constitutive functions have to satisfy; the last two only when the flux uses an eigendecomposition *)
Record mirrors : Prop := {
  mi_pressure : forall q, pressure ph (T q) = pressure ph q;
  mi_sigma : forall q j, (j < 3)%nat -> sigma ph (T q) 0 j = (match j with O => 1 | _ => -1 end) * sigma ph q 0 j;
  mi_source : forall q, source ph (T q) = T (source ph q);
  mi_speed : forall q, max_abs_eigs ph (T q) 0 = max_abs_eigs ph q 0;
  mi_jacobian : FLUX <> 0%nat -> forall q a b, jacobian ph (T q) 0 a b = - (sg a * sg b * jacobian ph q 0 a b);
  mi_eigabs : FLUX <> 0%nat -> forall (M M' : mat) (x : vec), (forall a b, M' a b = - (sg a * sg b * M a b)) -> eigabs ph M' (fun k => - (sg k * x k)) = fun k => - (sg k * eigabs ph M x k) }.
Hypothesis HP : mirrors.
Hypothesis HM : MULTI o = false.
Hypothesis HV : VISCOUS o = true.

Lemma V14' : (14 <= V o)%nat.
Proof using HV. unfold V, mV. rewrite HV. cbn. lia. Qed.
(** the flux is added to what is there *)
Lemma bump_at i x (r : vec) k : bump i x r k = r k + (if Nat.eqb k i then x else 0).
Proof using. unfold bump, upd. destruct (Nat.eqb_spec k i); subst; ring. Qed.
Lemma flux_adds ret q k : flux o ph ret q 0 k = ret k + flux o ph (fun _ => 0) q 0 k.
Proof using HM.
  clear HV. unfold flux. rewrite HM. cbv zeta. set (p := pressure ph q). set (S := sigma ph q 0).
  destruct (VISCOUS o), (THERMAL o); rewrite !bump_at; ring.
Qed.
Lemma flux_mirror q k : flux o ph (fun _ => 0) (T q) 0 k = - (sg k * flux o ph (fun _ => 0) q 0 k).
Proof using HP HM HV.
  unfold flux. rewrite HM, HV. cbv zeta. rewrite (mi_pressure HP). rewrite !(mi_sigma HP) by lia.
  assert (E : forall j, T q j = sg j * q j) by reflexivity. rewrite !E. cbn [Nat.add Nat.mul sign]. set (p := pressure ph q). set (S := sigma ph q 0).
  replace (1 * q 0%nat) with (q 0%nat) by ring. unfold Rdiv.
  destruct (THERMAL o) eqn:ET; rewrite !bump_at; do 17 (destruct k as [|k]; [cbn [Nat.eqb sign]; rewrite ?ET; ring|]); cbn [Nat.eqb sign]; ring.
Qed.
Lemma noncons_mirror q x k : noncons o (T q) (fun j => - (sg j * x j)) 0 k = sg k * noncons o q x 0 k.
Proof using.
  clear HP HM HV.
  unfold noncons. cbv zeta.
  assert (E : forall m, velocity (T q) m = sg (2 + m)%nat * velocity q m) by (intros m; unfold velocity, mirror; change (sg 0%nat) with 1; replace (1 * q 0%nat) with (q 0%nat) by ring; unfold Rdiv; ring).
  unfold sum3, delta. rewrite !E. destruct (Nat.leb 5 k && Nat.ltb k 14)%bool eqn:EB.
  - apply Bool.andb_true_iff in EB. destruct EB as [A B]. apply Nat.leb_le in A. apply Nat.ltb_lt in B.
    do 5 (destruct k as [|k]; [lia|]). do 9 (destruct k as [|k]; [cbn; ring|]). lia.
  - destruct (Nat.leb (V o - LSET o) k && Nat.ltb k (V o))%bool; [|ring]. change (sg (2 + 0)%nat) with (-1). ring.
Qed.
Lemma block_mirror q a b : block o (T q) 0 a b = - (sg a * sg b * block o q 0 a b).
Proof using HV.
  unfold block. rewrite HV. cbv zeta. assert (E : forall j, T q j = sg j * q j) by reflexivity. rewrite !E. change (sg (2 + 0)%nat) with (-1). change (sg 0%nat) with 1. replace (1 * q 0%nat) with (q 0%nat) by ring. unfold Rdiv.
  assert (SQ := sign_sq o). destruct (Nat.leb (V o - LSET o) a && Nat.ltb a (V o) && Nat.eqb a b)%bool eqn:E1.
  { apply Bool.andb_true_iff in E1. destruct E1 as [_ E1]. apply Nat.eqb_eq in E1. subst b. rewrite SQ. ring. }
  clear E1. destruct (Nat.leb_spec 5 a) as [A|A]; [destruct (Nat.ltb_spec a 14) as [B|B]|].
  - do 5 (destruct a as [|a]; [lia|]). 
    do 9 (destruct a as [|a]; [do 14 (destruct b as [|b]; [cbn; try ring|]); cbn; ring|]). lia.
  - do 14 (destruct a as [|a]; [lia|]). cbn. ring.
  - do 5 (destruct a as [|a]; [cbn; ring|]). lia.
Qed.
(** *** faces *)
Hypothesis HN : forall i, (i < N o)%nat -> NODES (N o - 1 - i)%nat = 1 - NODES i.
Hypothesis HWt : forall i, (i < N o)%nat -> WGHTS (N o - 1 - i)%nat = WGHTS i.
Notation numflux := (numflux o ph NODES WGHTS).
Lemma system_mirror q a b : FLUX <> 0%nat -> system_matrix o ph (T q) 0 a b = - (sg a * sg b * system_matrix o ph q 0 a b).
Proof using HP HV. intros HF. unfold system_matrix. rewrite (mi_jacobian HP HF), block_mirror. ring. Qed.
Lemma path_mirror qL qR i : (i < N o)%nat -> (fun k => T qL k + NODES (N o - 1 - i)%nat * (T qR k - T qL k)) = T (fun k => qR k + NODES i * (qL k - qR k)).
Proof using HN. intros H. apply functional_extensionality. intros k. unfold mirror. rewrite HN by exact H. ring. Qed.
Lemma numflux_mirror qL qR k : numflux FLUX (T qR) (T qL) 0 k = - (sg k * numflux FLUX qL qR 0 k).
Proof using HP HM HV HN HWt.
  unfold FvSpec.numflux, D. destruct FLUX as [|[|[|F]]] eqn:EF; [| | |ring].
  - unfold D_RUS. cbv zeta. rewrite !(mi_speed HP), (Rmax_comm (max_abs_eigs ph qR 0)). rewrite !(flux_adds (flux _ _ _ _ _)), !(flux_adds (fun _ => _ * _)), !flux_mirror. unfold mirror. field.
  - unfold D_ROE. cbv zeta. set (J := fun a b => rsum _ _).
    assert (E : (fun k => T qR k - T qL k) = fun k => - (sg k * (qL k - qR k))) by (apply functional_extensionality; intros j; unfold mirror; ring). rewrite E.
    set (J' := fun a b => rsum _ _). assert (EJ : forall a b, J a b = - (sg a * sg b * J' a b)).
    { intros a b. unfold J, J'. rewrite rsum_rev. rewrite <- rsum_scal, <- rsum_opp. apply rsum_ext. intros i Hi. rewrite HWt by exact Hi. rewrite (path_mirror qL qR i Hi), system_mirror by congruence. ring. }
    rewrite (mi_eigabs HP ltac:(congruence) J' J (fun k => qL k - qR k) EJ). rewrite !(flux_adds (flux _ _ _ _ _)), (flux_adds (eigabs _ _ _)), (flux_adds (fun k => - _)), !flux_mirror. field.
  - unfold D_OSH. cbv zeta.
    assert (E : (fun k => T qR k - T qL k) = fun k => - (sg k * (qL k - qR k))) by (apply functional_extensionality; intros j; unfold mirror; ring). rewrite E.
    rewrite !(flux_adds (flux _ _ _ _ _)), !(flux_adds (fun k => rsum _ _)), !flux_mirror.
    match goal with |- (rsum _ ?f + _ + _) / 2 = - (_ * ((rsum _ ?g + _ + _) / 2)) => assert (X : rsum (N o) f = - (sg k * rsum (N o) g)) end.
    { rewrite rsum_rev. rewrite <- rsum_scal, <- rsum_opp. apply rsum_ext. intros i Hi. rewrite HWt by exact Hi.
      rewrite (path_mirror qL qR i Hi).
      rewrite (mi_eigabs HP ltac:(congruence) (system_matrix o ph (fun k => qR k + NODES i * (qL k - qR k)) 0) _ (fun k => qL k - qR k)) by (intros; apply system_mirror; congruence). ring. }
    rewrite X. field.
Qed.
Lemma jump_mirror qL qR k : jump o NODES WGHTS (T qR) (T qL) 0 k = sg k * jump o NODES WGHTS qL qR 0 k.
Proof using HN HWt.
  clear HP HM HV. unfold jump. cbv zeta. rewrite rsum_rev, <- rsum_scal. apply rsum_ext. intros i Hi. rewrite HWt by exact Hi.
  assert (E : (fun k => T qL k - T qR k) = fun k => - (sg k * (qR k - qL k))) by (apply functional_extensionality; intros j; unfold mirror; ring). rewrite E.
  replace (fun c => T qR c + NODES (N o - 1 - i)%nat * (T qL c - T qR c)) with (T (fun k => qL k + NODES i * (qR k - qL k))) by (symmetry; apply (path_mirror qR qL i Hi)).
  rewrite noncons_mirror. ring.
Qed.
(** *** blocks *)
Hypothesis HE : forall e j, (e < 2)%nat -> (j < N o)%nat -> ENDVALS (1 - e)%nat (N o - 1 - j)%nat = ENDVALS e j.
Hypothesis HDr : forall i j, (i < N o)%nat -> (j < N o)%nat -> DERVALS (N o - 1 - i)%nat (N o - 1 - j)%nat = - DERVALS i j.
Definition mirrored (q q' : nodal) : Prop := forall s, (s < N o)%nat -> q' s = T (q (N o - 1 - s)%nat).
Lemma ends_mirrored q q' e : mirrored q q' -> (e < 2)%nat -> endpts1d o ENDVALS q' e = T (endpts1d o ENDVALS q (1 - e)).
Proof using HE.
  clear HP HM HV HN HWt HDr. intros H He. apply functional_extensionality. intros k. unfold endpts1d, mirror. rewrite rsum_rev, <- rsum_scal. apply rsum_ext. intros r Hr.
  rewrite H by lia. unfold mirror. replace (N o - 1 - (N o - 1 - r))%nat with r by lia. replace e with (1 - (1 - e))%nat at 1 by lia. rewrite HE by lia. ring.
Qed.
Lemma derivs_mirrored (f f' : nodal) c s k : (s < N o)%nat -> (forall r, (r < N o)%nat -> f' r k = c * f (N o - 1 - r)%nat k) -> derivs1d o DERVALS f' s k = - (c * derivs1d o DERVALS f (N o - 1 - s)%nat k).
Proof using HDr.
  clear HP HM HV HN HWt HE. intros Hs H. unfold derivs1d. rewrite rsum_rev, <- rsum_scal, <- rsum_opp. apply rsum_ext. intros r Hr. rewrite H by lia. replace (N o - 1 - (N o - 1 - r))%nat with r by lia.
  replace s with (N o - 1 - (N o - 1 - s))%nat at 1 by lia. rewrite HDr by lia. ring.
Qed.
Lemma noncons_mirrored q q' s k : mirrored q q' -> (s < N o)%nat -> noncons o (q' s) (derivs1d o DERVALS q' s) 0 k = sg k * noncons o (q (N o - 1 - s)%nat) (derivs1d o DERVALS q (N o - 1 - s)%nat) 0 k.
Proof using HDr.
  intros H Hs. rewrite <- noncons_mirror. rewrite (H s Hs). f_equal. apply functional_extensionality. intros j. apply derivs_mirrored; [exact Hs|]. intros r Hr. rewrite H by exact Hr. reflexivity.
Qed.
Lemma half_mirrored dt dx q q' : mirrored q q' -> mirrored (half1 o DERVALS ph dt dx q) (half1 o DERVALS ph dt dx q').
Proof using HP HM HV HDr.
  intros H s Hs. apply functional_extensionality. intros k. unfold half1 at 1. rewrite (noncons_mirrored q q' s k H Hs).
  rewrite (derivs_mirrored (fun r => flux o ph (fun _ => 0) (q r) 0) _ (- sg k)) by (try exact Hs; intros r Hr; rewrite H by exact Hr; rewrite flux_mirror; ring).
  rewrite (H s Hs). unfold mirror, half1. unfold Rdiv. ring.
Qed.
Lemma volume_mirrored SOURCES dx q q' k : mirrored q q' -> volume1 o ph WGHTS DERVALS SOURCES dx q' k = sg k * volume1 o ph WGHTS DERVALS SOURCES dx q k.
Proof using HP HWt HDr.
  intros H. unfold volume1. rewrite rsum_rev, <- rsum_scal. apply rsum_ext. intros s Hs. rewrite (noncons_mirrored q q') by (try exact H; lia). rewrite H, HWt by lia. replace (N o - 1 - (N o - 1 - s))%nat with s by lia.
  unfold src. destruct SOURCES; [rewrite (mi_source HP); unfold mirror|]; unfold Rdiv; ring.
Qed.
Lemma out_mirrored l r l' r' k : mirrored l r' -> mirrored r l' -> out1 o ph NODES WGHTS ENDVALS FLUX l' r' k = - (sg k * in1 o ph NODES WGHTS ENDVALS FLUX l r k).
Proof using HP HM HV HN HWt HE.
  intros H1 H2. unfold out1, in1. cbv zeta. rewrite (ends_mirrored r l') by (try exact H2; lia). rewrite (ends_mirrored l r') by (try exact H1; lia). cbn [Nat.sub]. rewrite numflux_mirror, jump_mirror. unfold Rdiv. ring.
Qed.
Lemma in_mirrored l r l' r' k : mirrored l r' -> mirrored r l' -> in1 o ph NODES WGHTS ENDVALS FLUX l' r' k = - (sg k * out1 o ph NODES WGHTS ENDVALS FLUX l r k).
Proof using HP HM HV HN HWt HE.
  intros H1 H2. unfold out1, in1. cbv zeta. rewrite (ends_mirrored r l') by (try exact H2; lia). rewrite (ends_mirrored l r') by (try exact H1; lia). cbn [Nat.sub]. rewrite numflux_mirror, jump_mirror. unfold Rdiv. ring.
Qed.
End Mirror.
