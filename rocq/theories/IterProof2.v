(** Lemmas about the main loop of solvers/iterator.cpp. *)
From Coq Require Import Reals ZArith Lra Psatz Lia List.
Import ListNotations.
From Verif Require Import Base Options Mat3 PhysModel UtilsModel IterModel IterSpec UtilsProof IterProof.
Open Scope R_scope.

(** ** no fuel is consumed outside the main loop *)
Definition nf {A} (x : res A) : Prop := x <> NoFuel.
Lemma nf_bind : forall {A B} (x : res A) (f : A -> res B), nf x -> (forall a, x = Ok a -> nf (f a)) -> nf (bind x f).
Proof. intros A B x f H1 H2. destruct x; cbn; [apply H2; reflexivity|discriminate|discriminate|now elim H1]. Qed.
Lemma nf_for : forall {S} n lo (f : nat -> S -> res S) s, (forall i s, nf (f i s)) -> nf (for_loop n lo f s).
Proof. induction n; cbn; intros lo f s H; [discriminate|]. apply nf_bind; auto. Qed.
Lemma nf_get : forall {A} (l : list A) i, nf (get l i).
Proof. intros A l i. unfold get. destruct (nth_error l i); discriminate. Qed.
Lemma nf_wr : forall {A} (b : buf A) i v, nf (wr b i v).
Proof. intros. unfold wr. destruct (Nat.ltb i (blen b)); discriminate. Qed.
Lemma nf_each : forall f u i, (forall i q, nf (f i q)) -> nf (each_cell f i u).
Proof.
  induction u; cbn; intros i H; [discriminate|]. apply nf_bind; [apply H|]. intros q _.
  apply nf_bind; [apply IHu, H|]. discriminate.
Qed.
Ltac nft := repeat first
  [ discriminate | apply nf_get | apply nf_wr | apply nf_for; intros | apply nf_bind; [|intros]
  | match goal with |- nf (if ?b then _ else _) => destruct b end
  | match goal with |- nf (match ?b with _ => _ end) => destruct b end
  | match goal with |- nf (let '_ := ?b in _) => destruct b end ].

Section Loop.
Variable o : options.
Variable svd : mat3 -> vec3 * mat3.
Variable speed : vec -> nat -> matpar -> option R.
Variable fill : list grid -> list (list bool) -> grid -> R -> res (grid * list grid * list (list bool)).
Variable advance : matpar -> grid -> list bool -> R -> res grid.
Variable nan : grid -> bool.
Variable ROT : bool.
Variables (dX : list R) (CFL tf tol : R) (MPs : list matpar).
Hypothesis nf_fill : forall g m u dt, nf (fill g m u dt).
Hypothesis nf_adv : forall m g k dt, nf (advance m g k dt).
Notation turn := (turn o svd speed fill advance nan ROT dX CFL tf tol MPs).
Notation run := (run o svd speed fill advance nan ROT dX CFL tf tol MPs).
Notation timestep := (timestep speed MPs).

Lemma nf_timestep : forall g k t c n, nf (timestep g k dX CFL t tf c n).
Proof. intros. unfold IterModel.timestep, max_rate. cbv zeta. nft. Qed.
Lemma nf_turn : forall s, nf (turn s).
Proof.
  intro s. unfold IterModel.turn, advance_all, make_u, renorm_distortion, rotate_distortion, reset_distortion, contorted.
  cbv zeta. nft; try apply nf_fill; try apply nf_adv; try apply nf_timestep; try apply nf_each; intros;
  unfold make_u_cell, renorm_cell, rotate_cell, reset_cell, has_A; cbv zeta; nft.
Qed.

(** ** what one turn does to the clock and the output *)
(** the loop went on or returned *)
Definition after (r : state + state) : state := match r with inl s => s | inr s => s end.
Lemma turn_ok : forall s r, turn s = Ok r ->
  exists g k dt, timestep g k dX CFL (s_t s) tf (s_count s) (List.length MPs) = Ok (Some dt) /\
    s_t (after r) = s_t s + dt /\ s_dt (after r) = dt /\ s_count (after r) = S (s_count s) /\
  exists ret push u, s_u (after r) = u /\
    (if Rle_dec (INR (s_push s + 1) / 100 * tf) (s_t s + dt)
     then wr (s_ret s) (s_push s) (u, s_t s + dt) = Ok ret /\ push = S (s_push s)
     else ret = s_ret s /\ push = s_push s) /\
    s_push (after r) = push /\
    match r with
    | inl s' => nan u = false /\ s_ret s' = ret
    | inr s' => nan u = true /\ exists ret1, wr ret push (s_u s, s_t s) = Ok ret1 /\ wr ret1 (push + 1) (u, s_t s + dt) = Ok (s_ret s')
    end.
Proof.
  intros s r E. unfold IterModel.turn in E. cbv zeta in E.
  apply bind_ok in E. destruct E as ([[u0 g] k] & _ & E). apply bind_ok in E. destruct E as (d & ED & E). destruct d as [dt|]; [|discriminate].
  exists g, k, dt. split; [exact ED|].
  apply bind_ok in E. destruct E as (g' & _ & E). apply bind_ok in E. destruct E as (u1 & _ & E). apply bind_ok in E. destruct E as (u2 & _ & E).
  apply bind_ok in E. destruct E as (u3 & _ & E). apply bind_ok in E. destruct E as (b & _ & E). apply bind_ok in E. destruct E as (u & _ & E).
  apply bind_ok in E. destruct E as ([ret push] & EP & E).
  assert (PP : if Rle_dec (INR (s_push s + 1) / 100 * tf) (s_t s + dt)
     then wr (s_ret s) (s_push s) (u, s_t s + dt) = Ok ret /\ push = S (s_push s)
     else ret = s_ret s /\ push = s_push s).
  { destruct (Rle_dec _ _).
    - apply bind_ok in EP. destruct EP as (x & X & EP). injection EP as <- <-. auto.
    - injection EP as <- <-. auto. }
  clear EP. destruct (nan u) eqn:NU.
  - apply bind_ok in E. destruct E as (r1 & R1 & E). apply bind_ok in E. destruct E as (r2 & R2 & E). injection E as <-. cbn [after s_t s_dt s_count s_push s_u].
    repeat split. exists ret, push, u. repeat split; try exact PP. exact NU. exists r1. split; [exact R1|exact R2].
  - injection E as <-. cbn [after s_t s_dt s_count s_push s_u]. repeat split. exists ret, push, u. repeat split; try exact PP. exact NU.
Qed.

Lemma timestep_le : forall g k t c dt, t <= tf -> timestep g k dX CFL t tf c (List.length MPs) = Ok (Some dt) -> t + dt <= tf.
Proof.
  intros g k t c dt Ht E. unfold IterModel.timestep in E. apply bind_ok in E. destruct E as (MAX & _ & E). cbv zeta in E.
  destruct (Req_EM_T MAX 0).
  - destruct (Rlt_dec 0 CFL); [|discriminate]. injection E as <-. lra.
  - injection E as <-. match goal with |- context [Rlt_dec tf ?x] => destruct (Rlt_dec tf x) end; lra.
Qed.
(** [MAX] is never negative, whatever the grids *)
Lemma max_rate_nonneg : forall g k nm MAX, max_rate speed MPs g k dX nm = Ok MAX -> 0 <= MAX.
Proof.
  intros g k nm MAX E. unfold max_rate in E. apply bind_ok in E. destruct E as (g0 & _ & E).
  refine (for_loop_inv_ok (fun _ x => 0 <= x) _ _ _ _ _ E _ _); [lra|]. intros i s s1 _ Hs Ei.
  apply bind_ok in Ei. destruct Ei as (m & _ & Ei). destruct (mp_void m); [injection Ei as <-; exact Hs|].
  refine (for_loop_inv_ok (fun _ x => 0 <= x) _ _ _ _ _ Ei _ _); [exact Hs|]. clear - speed. intros i2 x x1 _ Hs Ei.
  apply bind_ok in Ei. destruct Ei as (kk & _ & Ei). apply bind_ok in Ei. destruct Ei as (b & _ & Ei). destruct b; [|injection Ei as <-; exact Hs].
  apply bind_ok in Ei. destruct Ei as (gg & _ & Ei). apply bind_ok in Ei. destruct Ei as (q & _ & Ei). injection Ei as <-.
  assert (X := smax_ge x (rate speed dX q m)). lra.
Qed.
Lemma max_rate_le : forall M g k nm MAX, 0 <= M -> (forall q m r, rate speed dX q m = Some r -> r <= M) ->
  max_rate speed MPs g k dX nm = Ok MAX -> MAX <= M.
Proof.
  intros M g k nm MAX HM B E. unfold max_rate in E. apply bind_ok in E. destruct E as (g0 & _ & E).
  refine (for_loop_inv_ok (fun _ x => x <= M) _ _ _ _ _ E _ _); [lra|]. intros i s s1 _ Hs Ei.
  apply bind_ok in Ei. destruct Ei as (m & _ & Ei). destruct (mp_void m); [injection Ei as <-; exact Hs|].
  refine (for_loop_inv_ok (fun _ x => x <= M) _ _ _ _ _ Ei _ _); [exact Hs|]. clear - speed B. intros i2 x x1 _ Hs Ei.
  apply bind_ok in Ei. destruct Ei as (kk & _ & Ei). apply bind_ok in Ei. destruct Ei as (b & _ & Ei). destruct b; [|injection Ei as <-; exact Hs].
  apply bind_ok in Ei. destruct Ei as (gg & _ & Ei). apply bind_ok in Ei. destruct Ei as (q & _ & Ei). injection Ei as <-.
  destruct (smax_is x (rate speed dX q m)) as [->|X]; [exact Hs|]. eapply B, X.
Qed.
Lemma timestep_pos : forall g k t c dt, 0 < CFL -> t < tf -> timestep g k dX CFL t tf c (List.length MPs) = Ok (Some dt) -> 0 < dt.
Proof.
  intros g k t c dt HC Ht E. unfold IterModel.timestep in E. apply bind_ok in E. destruct E as (MAX & EM & E). cbv zeta in E.
  destruct (Req_EM_T MAX 0).
  - destruct (Rlt_dec 0 CFL); [|discriminate]. injection E as <-. lra.
  - assert (P : 0 < CFL / MAX). { assert (X := max_rate_nonneg _ _ _ _ EM). apply Rdiv_lt_0_compat; lra. }
    injection E as <-. match goal with |- context [Rlt_dec tf ?x] => destruct (Rlt_dec tf x) end; [lra|]. destruct (Nat.leb c 5); lra.
Qed.
Lemma timestep_progress : forall M g k t c dt, 0 < CFL -> 0 < M -> (forall q m r, rate speed dX q m = Some r -> r <= M) ->
  timestep g k dX CFL t tf c (List.length MPs) = Ok (Some dt) -> t + dt = tf \/ CFL / M / 5 <= dt.
Proof.
  intros M g k t c dt HC HM B E. unfold IterModel.timestep in E. apply bind_ok in E. destruct E as (MAX & EM & E). cbv zeta in E.
  destruct (Req_EM_T MAX 0).
  - destruct (Rlt_dec 0 CFL); [|discriminate]. injection E as <-. left. lra.
  - assert (P : CFL / M <= CFL / MAX).
    { assert (X := max_rate_nonneg _ _ _ _ EM). assert (Y := max_rate_le M _ _ _ _ ltac:(lra) B EM).
      apply Rmult_le_compat_l; [lra|]. apply Rinv_le_contravar; lra. }
    assert (0 < CFL / M) by (apply Rdiv_lt_0_compat; assumption).
    injection E as <-. match goal with |- context [Rlt_dec tf ?x] => destruct (Rlt_dec tf x) end; [left; lra|].
    right. destruct (Nat.leb c 5); lra.
Qed.

(** ** termination *)
Lemma run_fuel : forall M, 0 < CFL -> 0 < M -> (forall q m r, rate speed dX q m = Some r -> r <= M) ->
  forall fuel s, s_t s <= tf -> s_t s = tf \/ tf - s_t s < INR fuel * (CFL / M / 5) -> nf (run fuel s).
Proof.
  intros M HC HM B. set (d := CFL / M / 5). assert (D : 0 < d). { unfold d. assert (0 < CFL / M) by (apply Rdiv_lt_0_compat; assumption). lra. }
  assert (stop : forall s, nf (ret <- wr (s_ret s) 99 (s_u s, s_t s) ;;
    Ok (mkstate (s_u s) (s_grids s) (s_masks s) (s_t s) (s_dt s) (s_count s) (s_push s) ret, false))) by (intro; nft).
  induction fuel as [|fuel IH]; intros s Hs F; cbn [IterModel.run].
  - destruct (Rlt_dec (s_t s) tf); [destruct F as [F|F]; cbn in F; lra|apply stop].
  - destruct (Rlt_dec (s_t s) tf) as [L|L]; [|apply stop]. apply nf_bind; [apply nf_turn|]. intros r Er.
    destruct r as [s'|s']; [|discriminate]. destruct (turn_ok s _ Er) as (g & k & dt & ET & T & _). cbn [after] in T.
    assert (LE := timestep_le _ _ _ _ _ (Rlt_le _ _ L) ET). apply IH; [lra|].
    rewrite S_INR in F. destruct (timestep_progress M _ _ _ _ _ HC HM B ET) as [X|X]; [left; lra|].
    right. fold d in X. rewrite T. destruct F as [F|F]; [lra|]. fold d in F |- *. lra.
Qed.

(** ** the output *)
Definition empty_slot : grid * R := ([], 0).
Record inv (s : state) : Prop := mkinv {
  inv_t : 0 <= s_t s <= tf; inv_len : blen (s_ret s) = 100%nat; inv_push : INR (s_push s) / 100 * tf <= s_t s;
  inv_done : forall k, (k < s_push s)%nat -> exists u t, bdat (s_ret s) k = Some (u, t) /\ INR (k + 1) / 100 * tf <= t <= s_t s;
  inv_todo : forall k, (s_push s <= k)%nat -> bdat (s_ret s) k = Some empty_slot }.
Hypothesis (HC : 0 < CFL) (HT : 0 < tf).
Lemma inv_init : forall u, inv (init MPs u).
Proof.
  intro u. split; cbn; [lra|reflexivity|lra|intros; lia|reflexivity].
Qed.
Lemma push_bound : forall k, INR k / 100 * tf <= tf -> (k <= 100)%nat.
Proof.
  intros k H. apply INR_le. replace (INR 100) with 100 by (cbn; lra).
  destruct (Rle_dec (INR k) 100) as [|L]; [assumption|]. exfalso. assert (1 < INR k / 100) by lra. nra.
Qed.
(** the snapshot of a turn fits *)
Lemma turn_inv : forall s r, s_t s < tf -> inv s -> turn s = Ok r ->
  match r with
  | inl s' => inv s'
  | inr s' => exists ret, inv (mkstate (s_u s') (s_grids s') (s_masks s') (s_t s') (s_dt s') (s_count s') (s_push s') ret) /\
      (s_push s' <= 98)%nat /\ blen (s_ret s') = 100%nat /\
      forall k, bdat (s_ret s') k = if Nat.eqb k (s_push s' + 1) then Some (s_u s', s_t s') else
        if Nat.eqb k (s_push s') then Some (s_u s, s_t s) else bdat ret k
  end.
Proof.
  intros s r L [I1 I2 I3 I4 I5] E. destruct (turn_ok s r E) as (g & k & dt & ET & T & _ & _ & ret & push & u & EU & PP & EP & RR).
  assert (LE := timestep_le _ _ _ _ _ (Rlt_le _ _ L) ET). assert (DP := timestep_pos _ _ _ _ _ HC L ET).
  assert (X : forall a b c d, inv (mkstate a b c (s_t s + dt) dt d push ret)).
  { intros a b c d. destruct (Rle_dec (INR (s_push s + 1) / 100 * tf) (s_t s + dt)) as [Y|Y].
    - destruct PP as [W ->]. apply wr_inv in W. destruct W as [W ->].
      split; cbn [s_t s_ret s_push blen bdat]; [lra|exact I2|replace (S (s_push s)) with (s_push s + 1)%nat by lia; exact Y| |].
      + intros j Hj. destruct (Nat.eq_dec j (s_push s)) as [->|N].
        * exists u, (s_t s + dt). rewrite upd_same. split; [reflexivity|lra].
        * rewrite upd_other by exact N. destruct (I4 j ltac:(lia)) as (v & t & E1 & E2). exists v, t. split; [exact E1|lra].
      + intros j Hj. rewrite upd_other by lia. apply I5. lia.
    - destruct PP as [-> ->]. split; cbn [s_t s_ret s_push]; [lra|exact I2|lra| |exact I5].
      intros j Hj. destruct (I4 j Hj) as (v & t & E1 & E2). exists v, t. split; [exact E1|lra]. }
  destruct r as [s'|s']; cbn [after] in *.
  - destruct RR as [_ RR]. destruct s' as [a b c t' dt' d' p' r']. cbn [s_t s_push s_ret s_u] in *. subst.
    destruct (X u b c d') as [J1 J2 J3 J4 J5]. split; assumption.
  - destruct RR as [_ (ret1 & W1 & W2)]. exists ret. apply wr_inv in W1. destruct W1 as [W1 ->]. apply wr_inv in W2. cbn [blen bdat] in W2. destruct W2 as [W2 W3].
    destruct (X u (s_grids s') (s_masks s') (s_count s')) as [J1 J2 J3 J4 J5]. cbn [s_t s_ret s_push] in *. rewrite T, EP.
    split; [split; assumption|]. split; [lia|]. rewrite W3. cbn [blen bdat]. split; [exact J2|]. intro j. unfold upd. rewrite EU.
    destruct (Nat.eqb j (push + 1)); [reflexivity|]. destruct (Nat.eqb j push); reflexivity.
Qed.
(** in a turn that goes on, the write is in range: the only out-of-range writes are those of the abort *)
Lemma snapshot_fits : forall s dt, inv s -> s_t s + dt <= tf -> INR (s_push s + 1) / 100 * tf <= s_t s + dt -> (s_push s < 100)%nat.
Proof. intros s dt _ H1 H2. assert (X := push_bound (s_push s + 1) ltac:(lra)). lia. Qed.
(** the run from a state satisfying the invariant *)
Lemma run_inv : forall fuel s s' b, inv s -> run fuel s = Ok (s', b) ->
  if b then exists s0 s1, inv s0 /\ s_t s0 < tf /\ turn s0 = Ok (inr s1) /\ s' = s1
  else exists s0, inv s0 /\ s_t s0 = tf /\ wr (s_ret s0) 99 (s_u s0, tf) = Ok (s_ret s') /\ s_u s' = s_u s0 /\ s_t s' = tf /\ s_push s' = s_push s0.
Proof.
  assert (stop : forall s s' b, inv s -> ~ s_t s < tf -> (ret <- wr (s_ret s) 99 (s_u s, s_t s) ;;
    Ok (mkstate (s_u s) (s_grids s) (s_masks s) (s_t s) (s_dt s) (s_count s) (s_push s) ret, false)) = Ok (s', b) ->
    b = false /\ exists s0, inv s0 /\ s_t s0 = tf /\ wr (s_ret s0) 99 (s_u s0, tf) = Ok (s_ret s') /\ s_u s' = s_u s0 /\ s_t s' = tf /\ s_push s' = s_push s0).
  { intros s s' b I N E. apply bind_ok in E. destruct E as (ret & W & E). injection E as <- <-. split; [reflexivity|].
    assert (s_t s = tf) by (destruct (inv_t s I); lra). exists s. cbn. rewrite H in W. repeat split; try assumption; apply I. }
  induction fuel as [|fuel IH]; intros s s' b I E; cbn [IterModel.run] in E; destruct (Rlt_dec (s_t s) tf) as [L|L].
  - discriminate.
  - destruct (stop s s' b I L E) as [-> X]. exact X.
  - apply bind_ok in E. destruct E as (r & ER & E). assert (TI := turn_inv s r L I ER). destruct r as [s1|s1].
    + exact (IH s1 s' b TI E).
    + injection E as <- <-. exists s, s1. auto.
  - destruct (stop s s' b I L E) as [-> X]. exact X.
Qed.
End Loop.
