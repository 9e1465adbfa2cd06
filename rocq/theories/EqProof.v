(** The fluxes and the non-conservative terms compute what the equations say. *)
From Coq Require Import Reals Lra Lia.
From Verif Require Import Base Options Sum Mat3 EqModel EqSpec.
Open Scope R_scope.

Section P.
Variable o : options.
Variable ph : phys.
Hypothesis VISC : VISCOUS o = true.

Lemma bump_val i x r k : bump i x r k = r k + (if Nat.eqb k i then x else 0).
Proof. unfold bump, upd. destruct (Nat.eqb_spec k i) as [->|]; lra. Qed.

Lemma flux_spec ret Q d k : (d < 3)%nat -> Q 0%nat <> 0 ->
  flux o ph ret Q d k = (if (MULTI o && Nat.eqb k (mV o))%bool then 0 else ret k) + physical_flux o ph Q d k.
Proof.
  intros Hd Hq. unfold flux, physical_flux, heat_flux, dot3, mvec, velocity, Amat, mV, upd, delta. rewrite VISC.
  destruct d as [|[|[|d]]]; [| | |lia]; clear Hd;
  (destruct (THERMAL o), (MULTI o); cbn [b2n andb Nat.add Nat.mul]; cbv zeta; rewrite ?bump_val;
   (do 18 (destruct k as [|k]; [unfold sum3; cbn; try lra; try (field; exact Hq)|])); cbn; try lra).
Qed.

(** ** the non-conservative product *)
Definition bdot (Q x : vec) (d : nat) : vec :=
  let v := velocity Q in match d with O => B0dot o x v | 1%nat => B1dot o x v | _ => B2dot o x v end.
Lemma Bdot_ok Q x d : (d < 3)%nat -> Bdot o Q x d = Ok (bdot Q x d).
Proof. intros Hd. unfold Bdot, bdot, velocity. rewrite VISC. destruct d as [|[|[|d]]]; try reflexivity. lia. Qed.

Lemma V_big : (14 <= V o - LSET o)%nat.
Proof. unfold V. rewrite VISC. cbn [b2n]. lia. Qed.

Lemma bdot_conserved Q x d k : conserved o k -> bdot Q x d k = 0.
Proof.
  pose proof V_big as VB. unfold conserved, bdot, B0dot, B1dot, B2dot, level_sets. intros H.
  assert (L : (Nat.leb (V o - LSET o) k && Nat.ltb k (V o))%bool = false).
  { destruct H as [H|H]; apply Bool.andb_false_iff; left; apply Nat.leb_gt; lia. }
  destruct H as [H|H].
  - destruct d as [|[|d]]; rewrite !L; do 5 (destruct k as [|k]; [reflexivity|]); lia.
  - destruct d as [|[|d]]; rewrite !L; do 14 (destruct k as [|k]; [lia|]); reflexivity.
Qed.
Lemma bdot_zero Q x d k : (forall i, x i = 0) -> bdot Q x d k = 0.
Proof.
  intros H. unfold bdot, B0dot, B1dot, B2dot, level_sets.
  destruct d as [|[|d]]; rewrite !H; do 14 (destruct k as [|k]; [try ring; try (destruct (_ && _)%bool; ring)|]); destruct (_ && _)%bool; ring.
Qed.

(** ** sums of vectors *)
Lemma vsum_ok n f g : (forall i, (i < n)%nat -> f i = Ok (g i)) -> exists r, vsum n f = Ok r /\ forall k, r k = rsum n (fun i => g i k).
Proof.
  induction n as [|n IH]; intros H; cbn [vsum].
  - exists (fun _ => 0). split; [reflexivity|]. reflexivity.
  - destruct IH as [r [E R]]; [intros; apply H; lia|]. rewrite E. cbn [bind]. rewrite (H n) by lia. cbn [bind].
    eexists. split; [reflexivity|]. intros k. cbn [rsum]. now rewrite R.
Qed.

Variables NODES WGHTS : nat -> R.
Lemma Bint_ok qL qR d : (d < 3)%nat -> exists b, Bint o NODES WGHTS qL qR d = Ok b /\
  (forall k, conserved o k -> b k = 0) /\ ((forall k, qL k = qR k) -> forall k, b k = 0).
Proof.
  intros Hd. unfold Bint. set (dq := fun k => qR k - qL k).
  destruct (vsum_ok (N o) (fun i => tmp <- Bdot o (fun k => qL k + NODES i * dq k) dq d ;; Ok (scale (WGHTS i) tmp))
    (fun i => scale (WGHTS i) (bdot (fun k => qL k + NODES i * dq k) dq d))) as [b [E B]].
  { intros i Hi. rewrite Bdot_ok by exact Hd. reflexivity. }
  exists b. split; [exact E|]. split.
  - intros k Hk. rewrite B. apply rsum_zero. intros i Hi. unfold scale. rewrite bdot_conserved by exact Hk. ring.
  - intros H k. rewrite B. apply rsum_zero. intros i Hi. unfold scale. rewrite bdot_zero; [ring|]. intros j. unfold dq. rewrite H. ring.
Qed.

Definition diss FLUX (qL qR : vec) d : vec := let dq : vec := fun k => qL k - qR k in
  match FLUX with
  | O => fun k => Rmax (max_abs_eigs ph qL d) (max_abs_eigs ph qR d) * (qL k - qR k)
  | 1%nat => eigabs ph (fun a b => rsum (N o) (fun i => WGHTS i * system_matrix o ph (fun k => qR k + NODES i * dq k) d a b)) dq
  | _ => fun k => rsum (N o) (fun i => WGHTS i * eigabs ph (system_matrix o ph (fun k => qR k + NODES i * dq k) d) dq k)
  end.
Lemma D_ok FLUX qL qR d : (FLUX < 3)%nat -> (d < 3)%nat -> qL 0%nat <> 0 -> qR 0%nat <> 0 ->
  exists f, D o ph NODES WGHTS FLUX qL qR d = Ok f /\
    forall k, f k = if (MULTI o && Nat.eqb k (mV o))%bool then physical_flux o ph qR d k
                    else diss FLUX qL qR d k + physical_flux o ph qL d k + physical_flux o ph qR d k.
Proof.
  intros HF Hd H1 H2. destruct FLUX as [|[|[|F]]]; [| | |lia]; eexists; (split; [reflexivity|]); intros k;
  unfold D_RUS, D_ROE, D_OSH; rewrite flux_spec by assumption; (destruct (MULTI o && (k =? mV o))%bool eqn:E; [ring|]);
  rewrite flux_spec by assumption; rewrite E; reflexivity.
Qed.
Lemma D_total FLUX qL qR d : (FLUX < 3)%nat -> exists f, D o ph NODES WGHTS FLUX qL qR d = Ok f.
Proof. intros HF. destruct FLUX as [|[|[|F]]]; [| | |lia]; eexists; reflexivity. Qed.
End P.
