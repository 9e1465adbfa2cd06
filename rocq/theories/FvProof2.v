(** The finite volume code computes the finite volume formula. *)
From Coq Require Import Reals Lra Lia.
From Verif Require Import Base Options Sum Mat3 EqModel EqSpec EqProof FvModel FvBody FvProof FvSpec.
Import List ListNotations.
Open Scope R_scope.

Section P.
Variable o : options.
Variable ph : phys.
Hypothesis VISC : VISCOUS o = true.
Variables NODES WGHTS : nat -> R.
Notation Bint := (Bint o NODES WGHTS).
Notation jump := (jump o NODES WGHTS).

Lemma bdot_spec Q x d k : (d < 3)%nat -> bdot o Q x d k = noncons o Q x d k.
Proof.
  intros Hd. pose proof (V_big o VISC) as VB. unfold noncons. destruct (Nat.leb_spec 5 k) as [K|K]; cbn [andb].
  - destruct (Nat.ltb_spec k 14) as [K'|K'].
    + unfold bdot, B0dot, B1dot, B2dot, delta, sum3. destruct d as [|[|[|d]]]; [| | |lia];
      do 14 (destruct k as [|k]; [try lia; cbn; ring|]); lia.
    + unfold bdot, B0dot, B1dot, B2dot. destruct d as [|[|[|d]]]; [| | |lia]; do 14 (destruct k as [|k]; [lia|]); unfold level_sets; reflexivity.
  - assert (L : Nat.leb (V o - LSET o) k = false) by (apply Nat.leb_gt; lia). rewrite L. cbn [andb].
    apply bdot_conserved; [exact VISC|]. left. lia.
Qed.

Lemma Bint_jump qL qR d : (d < 3)%nat -> exists b, Bint qL qR d = Ok b /\ forall k, b k = jump qL qR d k.
Proof.
  intros Hd. unfold EqModel.Bint. set (dq := fun k => qR k - qL k).
  destruct (vsum_ok (N o) (fun i => tmp <- Bdot o (fun k => qL k + NODES i * dq k) dq d ;; Ok (scale (WGHTS i) tmp))
    (fun i => scale (WGHTS i) (bdot o (fun k => qL k + NODES i * dq k) dq d))) as [b [E B]].
  { intros i Hi. rewrite Bdot_ok by assumption. reflexivity. }
  exists b. split; [exact E|]. intros k. rewrite B. unfold FvSpec.jump. apply rsum_ext. intros i Hi. unfold scale. now rewrite bdot_spec.
Qed.
Variables ENDVALS DERVALS : nat -> nat -> R.
Variables (SOURCES TIME : bool) (FLUX : nat) (dt : R).
Hypothesis HF : (FLUX < 3)%nat.
Notation D := (D o ph NODES WGHTS FLUX).
Notation wt := (wt WGHTS TIME dt).
Notation numflux := (numflux o ph NODES WGHTS FLUX).
Lemma D_num qL qR d : exists f, D qL qR d = Ok f /\ forall k, f k = 2 * numflux qL qR d k.
Proof. destruct (D_total o ph NODES WGHTS FLUX qL qR d HF) as [f E]. exists f. split; [exact E|]. intros k. unfold FvSpec.numflux. rewrite E. lra. Qed.

(** additive updates *)
Definition zero : vec := fun _ => 0.
Definition additive (f : vec -> vec) : Prop := forall u k, f u k = u k + f zero k.
Definition gain (l : list (vec -> vec)) (k : nat) : R := fold_right (fun f s => f zero k + s) 0 l.
Lemma inc_additive x : additive (inc x). Proof. intros u k. unfold inc, zero. ring. Qed.
Lemma dec_additive x : additive (dec x). Proof. intros u k. unfold dec, zero. ring. Qed.
Lemma gain_app a b k : gain (a ++ b) k = gain a k + gain b k.
Proof. unfold gain. induction a as [|f a IH]; cbn; [lra|]. rewrite IH. lra. Qed.
Lemma run_gain l : Forall additive l -> forall x k, run l x k = x k + gain l k.
Proof.
  induction 1 as [|f l A F IH]; intros x k; cbn; [lra|]. unfold run in IH. rewrite IH, A. fold (gain l k). lra.
Qed.
Lemma gain_flat (L : nat -> list (vec -> vec)) n k : gain (flat_map L (seq 0 n)) k = rsum n (fun t => gain (L t) k).
Proof.
  induction n as [|n IH]; [reflexivity|]. rewrite seq_S, flat_map_app, gain_app, IH. cbn [flat_map rsum]. now rewrite app_nil_r.
Qed.
Lemma flat_additive (L : nat -> list (vec -> vec)) l : (forall t, In t l -> Forall additive (L t)) -> Forall additive (flat_map L l).
Proof. induction l as [|t l IH]; intros H; cbn; [constructor|]. apply Forall_app. split; [apply H; now left|]. apply IH. intros; apply H; now right. Qed.

Lemma collect_ok n (f : nat -> res (vec -> vec)) g : (forall s, (s < n)%nat -> f s = Ok (g s)) -> (forall s, (s < n)%nat -> additive (g s)) ->
  exists l, collect n f = Ok l /\ Forall additive l /\ forall k, gain l k = rsum n (fun s => g s zero k).
Proof.
  induction n as [|n IH]; intros H A; cbn [collect].
  - exists []. repeat split; constructor.
  - destruct IH as [l [E [F G]]]; [intros; apply H; lia|intros; apply A; lia|]. rewrite E. cbn [bind]. rewrite H by lia. cbn [bind].
    exists (l ++ [g n]). split; [reflexivity|]. split.
    + apply Forall_app. split; [exact F|]. constructor; [apply A; lia|constructor].
    + intros k. rewrite gain_app, G. cbn. lra.
Qed.

Lemma center1_ok dx t q : exists l, center1 o ph WGHTS DERVALS SOURCES TIME dt dx t q = Ok l /\ Forall additive l /\
  forall k, gain l k = wt t * volume1 o ph WGHTS DERVALS SOURCES dx q k.
Proof.
  unfold center1. destruct (collect_ok (N o)
    (fun s => tmpx <- Bdot o (q s) (derivs1d o DERVALS q s) 0 ;; Ok (inc (fun k => wt t * WGHTS s * (S0 ph SOURCES (q s) k - tmpx k / dx))))
    (fun s => inc (fun k => wt t * WGHTS s * (S0 ph SOURCES (q s) k - bdot o (q s) (derivs1d o DERVALS q s) 0 k / dx)))) as [l [E [F G]]].
  - intros s Hs. rewrite Bdot_ok by (try exact VISC; lia). reflexivity.
  - intros s Hs. apply inc_additive.
  - exists l. split; [exact E|]. split; [exact F|]. intros k. rewrite G. unfold volume1. rewrite <- rsum_scal. apply rsum_ext. intros s Hs.
    unfold inc, zero, src, S0. rewrite bdot_spec by lia. destruct SOURCES; ring.
Qed.

Lemma center2_ok dx dy t q : exists l, center2 o ph WGHTS DERVALS SOURCES TIME dt dx dy t q = Ok l /\ Forall additive l /\
  forall k, gain l k = wt t * volume2 o ph WGHTS DERVALS SOURCES dx dy q k.
Proof.
  unfold center2. set (G0 := fun s => inc (fun k => wt t * WGHTS (s / N o)%nat * WGHTS (s mod N o) * (S0 ph SOURCES (q s) k
     - bdot o (q s) (derivs2d o DERVALS q 0 s) 0 k / dx - bdot o (q s) (derivs2d o DERVALS q 1 s) 1 k / dy))).
  destruct (collect_ok (N o * N o) (fun s => let a := (s / N o)%nat in let b := (s mod N o)%nat in
    tmpx <- Bdot o (q s) (derivs2d o DERVALS q 0 s) 0 ;;
    tmpy <- Bdot o (q s) (derivs2d o DERVALS q 1 s) 1 ;;
    Ok (inc (fun k => wt t * WGHTS a * WGHTS b * (S0 ph SOURCES (q s) k - tmpx k / dx - tmpy k / dy)))) G0) as [l [E [F G]]].
  - intros s Hs. cbv zeta. rewrite !Bdot_ok by (try exact VISC; lia). reflexivity.
  - intros s Hs. apply inc_additive.
  - exists l. split; [exact E|]. split; [exact F|]. intros k. rewrite G. unfold volume2. rewrite rsum_prod, <- rsum_scal. apply rsum_ext. intros a Ha.
    rewrite <- rsum_scal. apply rsum_ext. intros b Hb. unfold G0, inc, zero, src, S0.
    replace ((a * N o + b) / N o)%nat with a by (rewrite Nat.div_add_l, Nat.div_small by lia; lia).
    replace ((a * N o + b) mod N o)%nat with b by (rewrite Nat.add_comm, Nat.mod_add, Nat.mod_small by lia; lia).
    rewrite !bdot_spec by lia. destruct SOURCES; ring.
Qed.

Lemma face1_ok dx d t l r : dx <> 0 -> exists el er, face1 o ph NODES WGHTS ENDVALS TIME FLUX dt dx d t l r = Ok (el, er) /\ additive el /\ additive er /\
  forall k, el zero k = - (wt t / dx * out1 o ph NODES WGHTS ENDVALS FLUX l r k) /\ er zero k = wt t / dx * in1 o ph NODES WGHTS ENDVALS FLUX l r k.
Proof.
  intros Hx. unfold face1. destruct (D_num (endpts1d o ENDVALS l 1) (endpts1d o ENDVALS r 0) 0) as [f [Ef F]].
  destruct (Bint_jump (endpts1d o ENDVALS l 1) (endpts1d o ENDVALS r 0) 0 ltac:(lia)) as [b [Eb B]].
  rewrite Ef. cbn [bind]. rewrite Eb. cbn [bind]. do 2 eexists. split; [reflexivity|]. split; [apply dec_additive|]. split; [apply dec_additive|].
  intros k. unfold dec, zero, out1, in1. rewrite F, B. split; field; exact Hx.
Qed.

Lemma face2_ok dx dy d t l r : (d < 2)%nat -> let h := match d with O => dx | _ => dy end in h <> 0 ->
  exists el er, face2 o ph NODES WGHTS ENDVALS TIME FLUX dt dx dy d t l r = Ok (el, er) /\ additive el /\ additive er /\
  forall k, el zero k = - (wt t / h * out2 o ph NODES WGHTS ENDVALS FLUX d l r k) /\ er zero k = wt t / h * in2 o ph NODES WGHTS ENDVALS FLUX d l r k.
Proof.
  intros Hd h Hx. unfold face2. fold h.
  set (q0 := endpts2d o ENDVALS l d 1). set (q1 := endpts2d o ENDVALS r d 0).
  destruct (vsum_ok (N o) (fun s => f <- D (q0 s) (q1 s) d ;; b <- Bint (q0 s) (q1 s) d ;; Ok (fun c => wt t / (2 * h) * WGHTS s * (b c + f c)))
     (fun s c => wt t / (2 * h) * WGHTS s * (match Bint (q0 s) (q1 s) d with Ok b => b c | _ => 0 end + match D (q0 s) (q1 s) d with Ok f => f c | _ => 0 end))) as [u0 [E0 U0]].
  { intros s Hs. destruct (D_num (q0 s) (q1 s) d) as [f [Ef F]]. destruct (Bint_jump (q0 s) (q1 s) d ltac:(lia)) as [b [Eb B]].
    rewrite Ef. cbn [bind]. rewrite Eb. reflexivity. }
  destruct (vsum_ok (N o) (fun s => f <- D (q0 s) (q1 s) d ;; b <- Bint (q0 s) (q1 s) d ;; Ok (fun c => wt t / (2 * h) * WGHTS s * (b c - f c)))
     (fun s c => wt t / (2 * h) * WGHTS s * (match Bint (q0 s) (q1 s) d with Ok b => b c | _ => 0 end - match D (q0 s) (q1 s) d with Ok f => f c | _ => 0 end))) as [u1 [E1 U1]].
  { intros s Hs. destruct (D_num (q0 s) (q1 s) d) as [f [Ef F]]. destruct (Bint_jump (q0 s) (q1 s) d ltac:(lia)) as [b [Eb B]].
    rewrite Ef. cbn [bind]. rewrite Eb. reflexivity. }
  rewrite E0. cbn [bind]. rewrite E1. cbn [bind]. do 2 eexists. split; [reflexivity|]. split; [apply dec_additive|]. split; [apply dec_additive|].
  intros k. unfold dec, zero, out2, in2. fold q0 q1. rewrite U0, U1. rewrite <- !rsum_scal. unfold Rminus. rewrite !Rplus_0_l. rewrite <- !rsum_opp. split; apply rsum_ext; intros s Hs;
  destruct (D_num (q0 s) (q1 s) d) as [f [Ef F]]; destruct (Bint_jump (q0 s) (q1 s) d ltac:(lia)) as [b [Eb B]];
  rewrite Ef, Eb, F, B; field; exact Hx.
Qed.

(** ** 1-D *)
Definition gl (p : option ((vec -> vec) * (vec -> vec))) k := gain (lside p) k.
Definition gr (p : option ((vec -> vec) * (vec -> vec))) k := gain (rside p) k.
Definition padd (p : option ((vec -> vec) * (vec -> vec))) := match p with Some (a, b) => additive a /\ additive b | None => True end.

Lemma rd_all {A} (b : buf A) n x : blen b = n -> (forall c, (c < n)%nat -> bdat b c = Some (x c)) -> forall c, (c < n)%nat -> rd b c = Ok (x c).
Proof. intros L H c Hc. apply rd_ok; [lia|auto]. Qed.

Lemma pad_additive p : padd p -> Forall additive (lside p) /\ Forall additive (rside p).
Proof. destruct p as [[a b]|]; cbn; [intros [A B]|intros _]; repeat constructor; assumption. Qed.

Theorem fv_step_1d dX (u : buf vec) (rec : buf nodal) (mask : buf bool) nx q m x : let nt := nt_of (N o) TIME in
  dX 0%nat <> 0 -> blen u = nx -> (forall c, (c < nx)%nat -> bdat u c = Some (x c)) ->
  (forall i t, (i < nx + 2)%nat -> (t < nt)%nat -> rd rec (i * nt + t) = Ok (q i t)) ->
  (forall i, (i < nx + 2)%nat -> rd mask i = Ok (m i)) ->
  exists u' x', fv_step o ph NODES WGHTS ENDVALS DERVALS SOURCES TIME FLUX dt dX u rec mask [nx] = Ok u' /\ blen u' = nx /\
    (forall c, (c < nx)%nat -> bdat u' c = Some (x' c)) /\
    forall c k, (c < nx)%nat -> x' c k = fv1 o ph NODES WGHTS ENDVALS DERVALS SOURCES FLUX nt wt (dX 0%nat) q m x c k.
Proof.
  intros nt Hx Lu Du Hq Hm. set (dx := dX 0%nat) in *.
  set (C := fun t i => if m (S i) then match center1 o ph WGHTS DERVALS SOURCES TIME dt dx t (q (S i) t) with Ok l => l | _ => [] end else []).
  set (P := fun t i => if (m i && m (S i))%bool then match face1 o ph NODES WGHTS ENDVALS TIME FLUX dt dx 0 t (q i t) (q (S i) t) with Ok p => Some p | _ => None end else None).
  assert (HC : forall t i, (t < nt)%nat -> (i < nx)%nat -> cell_at (center1 o ph WGHTS DERVALS SOURCES TIME dt dx) rec mask (i + 1) (ind1 (i + 1) t nt) t = Ok (C t i)).
  { intros t i Ht Hi. unfold cell_at, C. rewrite Hm by lia. cbn [bind]. replace (i + 1)%nat with (S i) by lia. destruct (m (S i)); [|reflexivity].
    unfold ind1. rewrite Hq by lia. cbn [bind]. destruct (center1_ok dx t (q (S i) t)) as [l [E _]]. now rewrite E. }
  assert (HP : forall t i, (t < nt)%nat -> (i < nx + 1)%nat -> face_at (face1 o ph NODES WGHTS ENDVALS TIME FLUX dt dx) rec mask 0 i (i + 1) (ind1 i t nt) (ind1 (i + 1) t nt) t = Ok (P t i)).
  { intros t i Ht Hi. unfold face_at, P. rewrite Hm by lia. cbn [bind]. destruct (m i); cbn [andb]; [|reflexivity]. rewrite Hm by lia. cbn [bind].
    replace (i + 1)%nat with (S i) by lia. destruct (m (S i)); [|reflexivity]. unfold ind1. rewrite !Hq by lia. cbn [bind].
    destruct (face1_ok dx 0 t (q i t) (q (S i) t) Hx) as [el [er [E _]]]. now rewrite E. }
  destruct (fv1_ok (N o) _ _ TIME rec mask nx C P HC HP) as [l [E [B A]]].
  destruct (updates_run l u x) as [u' [E' [L' V']]]; [intros p Hp; rewrite Lu; auto|rewrite Lu; exact Du|].
  exists u', (fun c => run (at_cell c l) (x c)).
  split; [|split; [lia|split]].
  - unfold fv_step, fv_launcher. fold dx. rewrite E. exact E'.
  - intros c Hc. apply V'. lia.
  - intros c k Hc. rewrite A by exact Hc. fold nt.
    assert (CA : forall t, Forall additive (C t c) /\ gain (C t c) k = wt t * on (m (S c)) (volume1 o ph WGHTS DERVALS SOURCES dx (q (S c) t) k)).
    { intros t. unfold C, on. destruct (m (S c)); [|split; [constructor|cbn; ring]]. destruct (center1_ok dx t (q (S c) t)) as [l0 [E0 [F0 G0]]]. rewrite E0. split; [exact F0|apply G0]. }
    assert (PA : forall t i, padd (P t i) /\ gl (P t i) k = - (wt t / dx * on (m i && m (S i)) (out1 o ph NODES WGHTS ENDVALS FLUX (q i t) (q (S i) t) k)) /\
       gr (P t i) k = wt t / dx * on (m i && m (S i)) (in1 o ph NODES WGHTS ENDVALS FLUX (q i t) (q (S i) t) k)).
    { intros t i. unfold P, on. destruct (m i && m (S i))%bool; [|cbn; split; [exact I|]; split; ring].
      destruct (face1_ok dx 0 t (q i t) (q (S i) t) Hx) as [el [er [E0 [A1 [A2 G]]]]]. rewrite E0. cbn. destruct (G k) as [G1 G2]. rewrite G1, G2. repeat split; auto; ring. }
    rewrite run_gain.
    + rewrite gain_app, !gain_flat. unfold fv1. rewrite (rsum_ext nt _ _ (fun t _ => proj2 (CA t))).
      rewrite (rsum_ext nt (fun t => gain (rside (P t c) ++ lside (P t (S c))) k) (fun t => - (wt t / dx * (on (m (S c) && m (S (S c))) (out1 o ph NODES WGHTS ENDVALS FLUX (q (S c) t) (q (S (S c)) t) k)
        - on (m c && m (S c)) (in1 o ph NODES WGHTS ENDVALS FLUX (q c t) (q (S c) t) k))))).
      * rewrite rsum_opp. ring.
      * intros t Ht. rewrite gain_app. fold (gr (P t c) k). fold (gl (P t (S c)) k). destruct (PA t c) as [_ [_ ->]]. destruct (PA t (S c)) as [_ [-> _]]. ring.
    + apply Forall_app. split; apply flat_additive; intros t Ht; [apply CA|]. apply Forall_app. split.
      * apply (pad_additive (P t c)), PA.
      * apply (pad_additive (P t (S c))), PA.
Qed.

(** ** 2-D *)
Theorem fv_step_2d dX (u : buf vec) (rec : buf nodal) (mask : buf bool) nx ny q m x : let nt := nt_of (N o) TIME in
  dX 0%nat <> 0 -> dX 1%nat <> 0 -> blen u = (nx * ny)%nat -> (forall a b, (a < nx)%nat -> (b < ny)%nat -> bdat u (a * ny + b)%nat = Some (x a b)) ->
  (forall i j t, (i < nx + 2)%nat -> (j < ny + 2)%nat -> (t < nt)%nat -> rd rec ((i * (ny + 2) + j) * nt + t) = Ok (q i j t)) ->
  (forall i j, (i < nx + 2)%nat -> (j < ny + 2)%nat -> rd mask (i * (ny + 2) + j) = Ok (m i j)) ->
  exists u' x', fv_step o ph NODES WGHTS ENDVALS DERVALS SOURCES TIME FLUX dt dX u rec mask [nx; ny] = Ok u' /\ blen u' = (nx * ny)%nat /\
    (forall a b, (a < nx)%nat -> (b < ny)%nat -> bdat u' (a * ny + b)%nat = Some (x' a b)) /\
    forall a b k, (a < nx)%nat -> (b < ny)%nat -> x' a b k = fv2 o ph NODES WGHTS ENDVALS DERVALS SOURCES FLUX nt wt (dX 0%nat) (dX 1%nat) q m x a b k.
Proof.
  intros nt Hx Hy Lu Du Hq Hm. set (dx := dX 0%nat) in *. set (dy := dX 1%nat) in *.
  set (ctr := center2 o ph WGHTS DERVALS SOURCES TIME dt dx dy). set (fc := face2 o ph NODES WGHTS ENDVALS TIME FLUX dt dx dy).
  set (C := fun t a b => if m (S a) (S b) then match ctr t (q (S a) (S b) t) with Ok l => l | _ => [] end else []).
  set (X := fun t i j => if (m i j && m (S i) j)%bool then match fc 0%nat t (q i j t) (q (S i) j t) with Ok p => Some p | _ => None end else None).
  set (Y := fun t i j => if (m i j && m i (S j))%bool then match fc 1%nat t (q i j t) (q i (S j) t) with Ok p => Some p | _ => None end else None).
  assert (HC : forall t i j, (t < nt)%nat -> (i < nx)%nat -> (j < ny)%nat -> cell_at ctr rec mask ((i + 1) * (ny + 2) + (j + 1)) (ind2 (i + 1) (j + 1) t (ny + 2) nt) t = Ok (C t i j)).
  { intros t i j Ht Hi Hj. unfold cell_at, C, ind2. rewrite Hm by lia. cbn [bind]. rewrite Hq by lia. rewrite !Nat.add_1_r. destruct (m (S i) (S j)); [|reflexivity].
    cbn [bind]. destruct (center2_ok dx dy t (q (S i) (S j) t)) as [l [E _]]. unfold ctr. now rewrite E. }
  assert (HX : forall t i j, (t < nt)%nat -> (i < nx + 1)%nat -> (0 < j < ny + 1)%nat -> xface fc rec mask ny nt i j t = Ok (X t i j)).
  { intros t i j Ht Hi Hj. unfold xface, face_at, X, ind2. rewrite (Hm i j) by lia. cbn [bind]. destruct (m i j); cbn [andb]; [|reflexivity]. rewrite Hm by lia. cbn [bind].
    rewrite !Hq by lia. rewrite !Nat.add_1_r. destruct (m (S i) j); [|reflexivity]. cbn [bind].
    destruct (face2_ok dx dy 0 t (q i j t) (q (S i) j t) ltac:(lia) Hx) as [el [er [E _]]]. unfold fc. now rewrite E. }
  assert (HY : forall t i j, (t < nt)%nat -> (0 < i < nx + 1)%nat -> (j < ny + 1)%nat -> yface fc rec mask ny nt i j t = Ok (Y t i j)).
  { intros t i j Ht Hi Hj. unfold yface, face_at, Y, ind2. rewrite (Hm i j) by lia. cbn [bind]. destruct (m i j); cbn [andb]; [|reflexivity]. rewrite Hm by lia. cbn [bind].
    rewrite !Hq by lia. rewrite !Nat.add_1_r. destruct (m i (S j)); [|reflexivity]. cbn [bind].
    destruct (face2_ok dx dy 1 t (q i j t) (q i (S j) t) ltac:(lia) Hy) as [el [er [E _]]]. unfold fc. now rewrite E. }
  assert (HM : forall a, (a < (nx + 2) * (ny + 2))%nat -> exists b, rd mask a = Ok b).
  { intros a Ha. exists (m (a / (ny + 2))%nat (a mod (ny + 2))).
    assert (E : a = (a / (ny + 2) * (ny + 2) + a mod (ny + 2))%nat) by (rewrite Nat.mul_comm; apply Nat.div_mod; lia).
    rewrite E at 1. apply Hm; [apply Nat.div_lt_upper_bound; lia|apply Nat.mod_upper_bound; lia]. }
  destruct (fv2_ok (N o) ctr fc TIME rec mask nx ny C X Y HM HC HX HY) as [l [E [B A]]].
  destruct (updates_run l u (fun c => x (c / ny)%nat (c mod ny))) as [u' [E' [L' V']]].
  { intros p Hp. rewrite Lu. auto. }
  { intros c Hc. rewrite Lu in Hc. destruct (Nat.eq_dec ny 0) as [->|Y0]; [lia|]. rewrite (Nat.div_mod c ny Y0) at 1. rewrite (Nat.mul_comm ny).
    apply Du; [apply Nat.div_lt_upper_bound; lia|apply Nat.mod_upper_bound; lia]. }
  exists u', (fun a b => run (at_cell (a * ny + b) l) (x a b)).
  split; [|split; [lia|split]].
  - unfold fv_step, fv_launcher. fold dx dy ctr fc. rewrite E. exact E'.
  - intros a b Ha Hb. rewrite V' by (rewrite Lu; apply pack_bound; lia).
    replace ((a * ny + b) / ny)%nat with a by (rewrite Nat.div_add_l, Nat.div_small by lia; lia).
    replace ((a * ny + b) mod ny)%nat with b by (rewrite Nat.add_comm, Nat.mod_add, Nat.mod_small by lia; lia). reflexivity.
  - intros a b k Ha Hb. rewrite A by assumption. fold nt.
    assert (CA : forall t, Forall additive (C t a b) /\ gain (C t a b) k = wt t * on (m (S a) (S b)) (volume2 o ph WGHTS DERVALS SOURCES dx dy (q (S a) (S b) t) k)).
    { intros t. unfold C, on, ctr. destruct (m (S a) (S b)); [|split; [constructor|cbn; ring]]. destruct (center2_ok dx dy t (q (S a) (S b) t)) as [l0 [E0 [F0 G0]]]. rewrite E0. split; [exact F0|apply G0]. }
    assert (PX : forall t i j, padd (X t i j) /\ gl (X t i j) k = - (wt t / dx * on (m i j && m (S i) j) (out2 o ph NODES WGHTS ENDVALS FLUX 0 (q i j t) (q (S i) j t) k)) /\
       gr (X t i j) k = wt t / dx * on (m i j && m (S i) j) (in2 o ph NODES WGHTS ENDVALS FLUX 0 (q i j t) (q (S i) j t) k)).
    { intros t i j. unfold X, on, fc. destruct (m i j && m (S i) j)%bool; [|cbn; split; [exact I|]; split; ring].
      destruct (face2_ok dx dy 0 t (q i j t) (q (S i) j t) ltac:(lia) Hx) as [el [er [E0 [A1 [A2 G]]]]]. rewrite E0. cbn. destruct (G k) as [G1 G2]. rewrite G1, G2. repeat split; auto; ring. }
    assert (PY : forall t i j, padd (Y t i j) /\ gl (Y t i j) k = - (wt t / dy * on (m i j && m i (S j)) (out2 o ph NODES WGHTS ENDVALS FLUX 1 (q i j t) (q i (S j) t) k)) /\
       gr (Y t i j) k = wt t / dy * on (m i j && m i (S j)) (in2 o ph NODES WGHTS ENDVALS FLUX 1 (q i j t) (q i (S j) t) k)).
    { intros t i j. unfold Y, on, fc. destruct (m i j && m i (S j))%bool; [|cbn; split; [exact I|]; split; ring].
      destruct (face2_ok dx dy 1 t (q i j t) (q i (S j) t) ltac:(lia) Hy) as [el [er [E0 [A1 [A2 G]]]]]. rewrite E0. cbn. destruct (G k) as [G1 G2]. rewrite G1, G2. repeat split; auto; ring. }
    rewrite run_gain.
    + rewrite gain_app, !gain_flat. unfold fv2. rewrite (rsum_ext nt _ _ (fun t _ => proj2 (CA t))).
      unfold Rminus. rewrite !Rplus_assoc. do 2 f_equal. rewrite <- !rsum_opp, <- rsum_plus. apply rsum_ext. intros t Ht.
      rewrite !gain_app. fold (gr (X t a (S b)) k). fold (gr (Y t (S a) b) k). fold (gl (X t (S a) (S b)) k). fold (gl (Y t (S a) (S b)) k).
      destruct (PX t a (S b)) as [_ [_ ->]]. destruct (PX t (S a) (S b)) as [_ [-> _]]. destruct (PY t (S a) b) as [_ [_ ->]]. destruct (PY t (S a) (S b)) as [_ [-> _]]. ring.
    + apply Forall_app. split; apply flat_additive; intros t Ht; [apply CA|]. repeat (apply Forall_app; split).
      * apply (pad_additive (X t a (S b))), PX.
      * apply (pad_additive (Y t (S a) b)), PY.
      * apply (pad_additive (X t (S a) (S b))), PX.
      * apply (pad_additive (Y t (S a) (S b))), PY.
Qed.
End P.
