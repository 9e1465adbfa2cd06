(** Properties C33 - C37: the time step, the end of a run, snapshots, assembly of the global state. *)
From Coq Require Import Reals ZArith Lra Psatz Lia List.
Import ListNotations.
From Verif Require Import Base Options Mat3 PhysModel PhysProof2 UtilsModel IterModel IterSpec UtilsProof IterProof IterProof2 PhysProps.
Open Scope R_scope.

(** ** C33 *)
Definition cfl_bound (CFL : R) (count : nat) : R := if Nat.leb count 5 then CFL / 5 else CFL.
Lemma rate_some speed q m dX : forall d a r, rate_from speed d dX a q m = Some r ->
  exists a0 c, a = Some a0 /\ (forall e, (d <= e < d + List.length dX)%nat -> speed q e m = Some (c e)) /\ r = a0 + speed_sum c d dX.
Proof.
  induction dX as [|h dX IH]; cbn; intros d a r E.
  - exists r, (fun _ => 0). split; [exact E|]. split; [intros; lia|ring].
  - destruct (IH _ _ _ E) as (a0 & c & E1 & E2 & ->). destruct a as [a|]; [|discriminate]. destruct (speed q d m) as [x|] eqn:SX; [|discriminate].
    injection E1 as <-. exists a, (fun e => if Nat.eqb e d then x else c e). split; [reflexivity|]. split.
    + intros e He. destruct (Nat.eqb_spec e d) as [->|]; [exact SX|apply E2; lia].
    + rewrite Nat.eqb_refl. replace (speed_sum (fun e => if Nat.eqb e d then x else c e) (S d) dX) with (speed_sum c (S d) dX); [ring|].
      clear. assert (G : forall l k, (d < k)%nat -> speed_sum c k l = speed_sum (fun e => if Nat.eqb e d then x else c e) k l).
      { induction l as [|h l IH]; cbn; intros k Hk; [reflexivity|]. rewrite IH by lia. destruct (Nat.eqb_spec k d); [lia|reflexivity]. }
      apply G. lia.
Qed.
Theorem timestep_respects_cfl speed n MPs grids masks dX CFL t tf count :
  shaped n MPs grids masks -> MPs <> [] -> 0 < CFL -> t <= tf ->
  exists dt, timestep speed MPs grids masks dX CFL t tf count (List.length MPs) = Ok (Some dt) /\
    t + dt <= tf /\ (t < tf -> 0 < dt) /\
    (forall mat i q m c, active MPs grids masks mat i q m -> (forall d, (d < List.length dX)%nat -> speed q d m = Some (c d)) ->
       dt * speed_sum c 0 dX <= cfl_bound CFL count) /\
    (dt = tf - t \/ exists mat i q m c, active MPs grids masks mat i q m /\
       (forall d, (d < List.length dX)%nat -> speed q d m = Some (c d)) /\ dt * speed_sum c 0 dX = cfl_bound CFL count).
Proof.
  intros SH NE HC HT. destruct (max_rate_ok speed MPs grids masks dX n SH NE) as (MAX & E & P & AT & UB).
  assert (UB' : forall mat i q m c, active MPs grids masks mat i q m -> (forall d, (d < List.length dX)%nat -> speed q d m = Some (c d)) -> speed_sum c 0 dX <= MAX).
  { intros mat i q m c A F. apply (UB mat i q m _ A). apply rate_finite. exact F. }
  assert (CB : 0 < cfl_bound CFL count) by (unfold cfl_bound; destruct (Nat.leb count 5); lra).
  unfold timestep. rewrite E. cbn [bind]. destruct (Req_EM_T MAX 0) as [Z|Z].
  - destruct (Rlt_dec 0 CFL); [|lra]. exists (tf - t). split; [reflexivity|]. split; [lra|]. split; [lra|]. split; [|left; reflexivity].
    intros mat i q m c A F. specialize (UB' mat i q m c A F). nra.
  - assert (MP : 0 < MAX) by lra.
    assert (D : (if Nat.leb count 5 then CFL / MAX * (2 / 10) else CFL / MAX) = cfl_bound CFL count / MAX).
    { unfold cfl_bound. destruct (Nat.leb count 5); field; lra. }
    cbv zeta. rewrite D. set (b := cfl_bound CFL count) in *. assert (BM : b / MAX * MAX = b) by (field; lra).
    assert (BP : 0 < b / MAX) by (apply Rdiv_lt_0_compat; assumption).
    destruct (Rlt_dec tf (t + b / MAX)) as [L|L].
    + exists (tf - t). split; [reflexivity|]. split; [lra|]. split; [lra|]. split; [|left; reflexivity].
      intros mat i q m c A F. specialize (UB' mat i q m c A F).
      assert (X : (tf - t) * speed_sum c 0 dX <= (tf - t) * MAX) by (apply Rmult_le_compat_l; lra).
      assert (Y : (tf - t) * MAX <= b / MAX * MAX) by (apply Rmult_le_compat_r; lra). lra.
    + exists (b / MAX). split; [reflexivity|]. split; [lra|]. split; [lra|]. split.
      * intros mat i q m c A F. specialize (UB' mat i q m c A F).
        assert (X : b / MAX * speed_sum c 0 dX <= b / MAX * MAX) by (apply Rmult_le_compat_l; lra). lra.
      * right. destruct AT as [AT|(mat & i & q & m & A & R1)]; [contradiction|].
        destruct (rate_some speed q m dX _ _ _ R1) as (a0 & c & E0 & F & EQ). injection E0 as <-.
        exists mat, i, q, m, c. split; [exact A|]. split; [intros; apply F; lia|]. rewrite <- BM at 2. rewrite EQ. ring.
Qed.
Print Assumptions timestep_respects_cfl.
(** A NaN wave speed does not limit the step: with nothing but NaNs the rest of the run is one step. *)
Theorem nan_speed_unlimited_refuted : exists speed MPs grids masks mat i q m, shaped 1 MPs grids masks /\ active MPs grids masks mat i q m /\
  speed q 0%nat m = None /\ forall CFL t tf count, 0 < CFL -> timestep speed MPs grids masks [1] CFL t tf count 1 = Ok (Some (tf - t)).
Proof.
  set (m := mkmatpar (demo_par JWL 300) false). set (q := (fun _ => 0) : vec).
  exists (fun _ _ _ => None), [m], [[q]], [[true]], 0%nat, 0%nat, q, m. split.
  { split; [reflexivity|]. split; [reflexivity|]. split; intros x [<-|[]]; reflexivity. }
  split. { split; [reflexivity|]. split; [reflexivity|]. split; eexists; split; reflexivity. }
  split; [reflexivity|]. intros CFL t tf count H. unfold timestep, max_rate. cbn -[Req_EM_T Rlt_dec].
  destruct (Req_EM_T 0 0); [|lra]. destruct (Rlt_dec 0 CFL); [reflexivity|lra].
Qed.
Print Assumptions nan_speed_unlimited_refuted.
Example timestep_hyps : exists MPs grids masks mat i q m, shaped 2 MPs grids masks /\ MPs <> [] /\ active MPs grids masks mat i q m.
Proof.
  set (m := mkmatpar (demo_par JWL 300) false).
  exists [mkmatpar (demo_par JWL 300) true; m], [[sheared; sheared]; [sheared; sheared]], [[true; true]; [false; true]], 1%nat, 1%nat, sheared, m.
  split. { split; [reflexivity|]. split; [reflexivity|]. split; intros x [<-|[<-|[]]]; reflexivity. }
  split; [discriminate|]. split; [reflexivity|]. split; [reflexivity|]. split; eexists; split; reflexivity.
Qed.

(** ** C36 *)
(** [averaged] is the mean of the level set over the grids whose mask covers the cell, or the old value if none does. *)
Theorem make_u_assembles o MPs grids masks u : shaped (List.length u) MPs grids masks -> (LSET o < List.length MPs)%nat ->
  exists u', make_u o MPs grids masks u = Ok u' /\ List.length u' = List.length u /\
  forall i q q', nth_error u i = Some q -> nth_error u' i = Some q' ->
    let lo := (V o - LSET o)%nat in let C := covering masks (List.length MPs) i in
    (forall k, (k < LSET o)%nat -> q' (lo + k)%nat =
       if Nat.eqb (List.length C) 0 then q (lo + k)%nat
       else rsum_over (fun mat => cell_of grids mat i (lo + k)%nat) C / INR (List.length C)) /\
    exists m, nth_error MPs (get_material_index o q') = Some m /\
      forall k, (k < lo)%nat -> q' k = if mp_void m then 0 else cell_of grids (get_material_index o q') i k.
Proof.
  intros SH NM. destruct (each_cell_total (make_u_cell o MPs grids masks) u 0) as [u' E].
  { intros k q K. destruct (make_u_cell_ok o MPs grids masks _ SH NM k q) as (q' & Q & _); [apply nth_error_Some; congruence|eauto]. }
  destruct (each_cell_ok _ _ _ _ E) as [L H]. exists u'. split; [exact E|]. split; [exact L|]. intros i q q' Q Q' lo C.
  destruct (H i q Q) as (x & X & Y). rewrite Q' in X. injection X as <-.
  destruct (make_u_cell_ok o MPs grids masks _ SH NM i q) as (y & EY & A & _ & B); [apply nth_error_Some; congruence|].
  cbn [Nat.add] in Y. rewrite Y in EY. injection EY as <-. split; [|exact B].
  intros k Hk. unfold lo. rewrite (A k Hk). unfold averaged. fold C. destruct C; reflexivity.
Qed.
Print Assumptions make_u_assembles.
(** with fewer grids than the level sets can select, the read is out of range *)
Theorem make_u_too_few_grids_refuted : exists MPs grids masks u, shaped 1 MPs grids masks /\ is_ub (make_u shipped MPs grids masks u).
Proof.
  set (m := mkmatpar (demo_par JWL 300) false). set (q := (fun _ => 1) : vec).
  exists [m], [[q]], [[true]], [q]. split. { split; [reflexivity|]. split; [reflexivity|]. split; intros x [<-|[]]; reflexivity. }
  unfold is_ub, make_u. cbn [each_cell]. unfold make_u_cell. cbn -[get_material_index setseg V LSET].
  set (q1 := setseg q _ _ _). replace (get_material_index shipped q1) with 2%nat; [eexists; reflexivity|].
  unfold get_material_index. cbn [LSET shipped V b2n VISCOUS THERMAL MULTI Nat.add Nat.mul Nat.sub seq].
  assert (P : forall k, (14 <= k < 16)%nat -> 0 <= q1 k).
  { intros k Hk. unfold q1. rewrite setseg_in by (cbn; lia). unfold q. cbn. lra. }
  cbn [filter]. destruct (Rle_dec 0 (q1 14%nat)) as [_|X]; [|elim X; apply P; lia]. destruct (Rle_dec 0 (q1 15%nat)) as [_|X]; [|elim X; apply P; lia]. reflexivity.
Qed.
Print Assumptions make_u_too_few_grids_refuted.

(** ** C37 *)
Theorem limit_concentration_bounds o u i q q' : nth_error u i = Some q -> nth_error (limit_concentration o u) i = Some q' ->
  (forall k, k <> mV o -> q' k = q k) /\ (MULTI o = false -> q' = q) /\
  (MULTI o = true -> 0 <= q 0%nat -> 0 <= q' (mV o) <= q' 0%nat /\ (0 <= q (mV o) <= q 0%nat -> q' (mV o) = q (mV o)) /\
     (q (mV o) < 0 -> q' (mV o) = 0) /\ (q 0%nat < q (mV o) -> q' (mV o) = q 0%nat)).
Proof.
  intros Q Q'. unfold limit_concentration in Q'. destruct (MULTI o) eqn:MU.
  2:{ rewrite Q in Q'. injection Q' as <-. repeat split; congruence. }
  rewrite nth_error_map, Q in Q'. cbn [option_map] in Q'. injection Q' as <-. cbv zeta. rewrite !set1_same. split.
  { intros k Hk. rewrite !set1_other by exact Hk. reflexivity. }
  split; [discriminate|]. intros _ H0. rewrite !(set1_other _ _ _ 0) by (unfold mV; lia).
  unfold cmin, cmax. destruct (Rlt_dec (q 0%nat) (q (mV o))); match goal with |- context [Rlt_dec ?x 0] => destruct (Rlt_dec x 0) end;
    repeat split; intros; lra.
Qed.
Print Assumptions limit_concentration_bounds.
Example limit_hyps : MULTI (mkopt true false true 0 true false 2) = true /\ 0 <= sheared 0%nat /\
  nth_error (limit_concentration (mkopt true false true 0 true false 2) [fun k => if Nat.eqb k 14 then 5 else sheared k]) 0 <> None.
Proof. repeat split; [unfold sheared; lra|discriminate]. Qed.

(** ** C34 *)
Section Runs.
Variable o : options.
Variable svd : mat3 -> vec3 * mat3.
Variable speed : vec -> nat -> matpar -> option R.
Variable fill : list grid -> list (list bool) -> grid -> R -> res (grid * list grid * list (list bool)).
Variable advance : matpar -> grid -> list bool -> R -> res grid.
Variable nan : grid -> bool.
Variable ROT : bool.
Variables (dX : list R) (CFL tf tol : R) (MPs : list matpar).
Notation iterator := (iterator o svd speed fill advance nan ROT dX CFL tf tol MPs).
Notation turn := (turn o svd speed fill advance nan ROT dX CFL tf tol MPs).

(** The sum of the speeds is bounded: the number of turns is at most five times the final time over the CFL step. The
    model calls that stand for the ghost filling and the stepper must themselves terminate. *)
Theorem run_terminates M u fuel : 0 < CFL -> 0 < M -> 0 < tf ->
  (forall q m c, (forall d, (d < List.length dX)%nat -> speed q d m = Some (c d)) -> speed_sum c 0 dX <= M) ->
  (forall g k v dt, fill g k v dt <> NoFuel) -> (forall m g k dt, advance m g k dt <> NoFuel) ->
  tf < INR fuel * (CFL / M / 5) -> iterator fuel u <> NoFuel.
Proof.
  intros HC HM HT B F A E. apply (run_fuel o svd speed fill advance nan ROT dX CFL tf tol MPs F A M HC HM).
  - intros q m r Er. destruct (rate_some speed q m dX _ _ _ Er) as (a0 & c & E0 & G & ->). injection E0 as <-.
    rewrite Rplus_0_l. apply (B q m c). intros d Hd. apply G. lia.
  - cbn. lra.
  - right. cbn [init s_t]. lra.
Qed.
Theorem run_ends_at_final_time u fuel s : 0 < CFL -> 0 < tf -> iterator fuel u = Ok (s, false) ->
  s_t s = tf /\ bdat (s_ret s) 99 = Some (s_u s, tf).
Proof.
  intros HC HT E. destruct (run_inv o svd speed fill advance nan ROT dX CFL tf tol MPs HC fuel _ _ _ (inv_init tf MPs HT u) E)
    as (s0 & _ & _ & W & EU & ET & _).
  split; [exact ET|]. apply wr_inv in W. destruct W as [_ ->]. cbn [bdat]. rewrite upd_same, EU. reflexivity.
Qed.

(** ** C35 *)
(** the states at the top of the loop *)
Inductive reached (u : grid) : state -> Prop :=
| reached_init : reached u (init MPs u)
| reached_turn s s' : reached u s -> s_t s < tf -> turn s = Ok (inl s') -> reached u s'.
Lemma reached_inv u s : 0 < CFL -> 0 < tf -> reached u s -> inv tf s.
Proof.
  intros HC HT R1. induction R1 as [|s s' R1 IH L E]; [apply inv_init; assumption|].
  exact (turn_inv o svd speed fill advance nan ROT dX CFL tf tol MPs HC s _ L IH E).
Qed.
(** the regular snapshot is always in range *)
Theorem snapshot_in_range u s g k dt v : 0 < CFL -> 0 < tf -> reached u s -> s_t s < tf ->
  timestep speed MPs g k dX CFL (s_t s) tf (s_count s) (List.length MPs) = Ok (Some dt) ->
  INR (s_push s + 1) / 100 * tf <= s_t s + dt -> (s_push s < 100)%nat /\ is_ok (wr (s_ret s) (s_push s) (v, s_t s + dt)).
Proof.
  intros HC HT R1 L E P. assert (I := reached_inv u s HC HT R1).
  assert (LE := timestep_le speed dX CFL tf MPs _ _ _ _ _ (Rlt_le _ _ L) E).
  assert (X := snapshot_fits tf HT s dt I LE P). split; [exact X|]. unfold is_ok. rewrite wr_ok; [eauto|]. rewrite (inv_len _ _ I). exact X.
Qed.
(** the output of a run that is not aborted *)
Theorem snapshots_partial u fuel s : 0 < CFL -> 0 < tf -> iterator fuel u = Ok (s, false) ->
  blen (s_ret s) = 100%nat /\ (s_push s <= 100)%nat /\
  forall k, (k < 99)%nat -> exists v t, bdat (s_ret s) k = Some (v, t) /\
    ((k < s_push s)%nat -> INR (k + 1) / 100 * tf <= t <= tf) /\ ((s_push s <= k)%nat -> v = [] /\ t = 0).
Proof.
  intros HC HT E. destruct (run_inv o svd speed fill advance nan ROT dX CFL tf tol MPs HC fuel _ _ _ (inv_init tf MPs HT u) E)
    as (s0 & I & T0 & W & _ & _ & EP). apply wr_inv in W. destruct W as [_ ->]. rewrite EP. cbn [blen bdat].
  split; [apply I|]. split; [apply (push_bound tf HT); rewrite <- T0 at 2; apply I|]. intros k Hk. rewrite upd_other by lia.
  destruct (Nat.lt_ge_cases k (s_push s0)) as [L|L].
  - destruct (inv_done _ _ I k L) as (v & t & E1 & E2). exists v, t. split; [exact E1|]. split; [intros _; lra|lia].
  - exists [], 0. rewrite (inv_todo _ _ I k L). split; [reflexivity|]. split; [lia|auto].
Qed.
(** the output of an aborted run, when there is room: the last good state and the state with the NaN *)
Theorem abort_output u fuel s : 0 < CFL -> 0 < tf -> iterator fuel u = Ok (s, true) ->
  nan (s_u s) = true /\ (s_push s <= 98)%nat /\ blen (s_ret s) = 100%nat /\ bdat (s_ret s) (s_push s + 1) = Some (s_u s, s_t s) /\
  (exists v t, bdat (s_ret s) (s_push s) = Some (v, t) /\ t < s_t s) /\
  forall k, (k < s_push s)%nat -> exists v t, bdat (s_ret s) k = Some (v, t) /\ INR (k + 1) / 100 * tf <= t <= s_t s.
Proof.
  intros HC HT E. destruct (run_inv o svd speed fill advance nan ROT dX CFL tf tol MPs HC fuel _ _ _ (inv_init tf MPs HT u) E)
    as (s0 & s1 & I & L & ET & ->).
  assert (T := turn_inv o svd speed fill advance nan ROT dX CFL tf tol MPs HC s0 _ L I ET). cbn in T. destruct T as (ret & J & P & BL & D).
  destruct (turn_ok o svd speed fill advance nan ROT dX CFL tf tol MPs s0 _ ET) as (g & k & dt & EDT & T & _ & _ & r' & p' & v & EU & _ & _ & N & _). cbn [after] in *.
  split; [rewrite EU; exact N|]. split; [exact P|]. split; [exact BL|]. split; [rewrite D, Nat.eqb_refl; reflexivity|]. split.
  - exists (s_u s0), (s_t s0). rewrite D. destruct (Nat.eqb_spec (s_push s1) (s_push s1 + 1)); [lia|]. rewrite Nat.eqb_refl.
    split; [reflexivity|]. assert (DP := timestep_pos speed dX CFL tf MPs _ _ _ _ _ HC L EDT). lra.
  - intros j Hj. rewrite D. destruct (Nat.eqb_spec j (s_push s1 + 1)); [lia|]. destruct (Nat.eqb_spec j (s_push s1)); [lia|].
    exact (inv_done _ _ J j Hj).
Qed.
End Runs.
Print Assumptions run_terminates.
Print Assumptions run_ends_at_final_time.
Print Assumptions snapshot_in_range.
Print Assumptions snapshots_partial.
Print Assumptions abort_output.

(** A run whose state becomes invalid in its last percent: the abort writes past the hundred slots. One cell, no level
    sets; the second momentum component carries the time and the state is declared invalid at time 1. *)
Definition ab_o0 : options := mkopt true false false 0 true false 2.
Definition ab_m0 : matpar := mkmatpar (demo_par JWL 300) false.
Definition ab_svd0 : mat3 -> vec3 * mat3 := fun _ => ((fun _ => 0) : vec3, id3).
Definition ab_speed0 : vec -> nat -> matpar -> option R := fun _ _ _ => Some 1.
Definition ab_fill0 : list grid -> list (list bool) -> grid -> R -> res (grid * list grid * list (list bool)) := fun g k u _ => Ok (u, g, k).
Definition ab_advance0 : matpar -> grid -> list bool -> R -> res grid := fun _ g _ dt => Ok (map (fun q => set1 q 2 (q 2%nat + dt)) g).
Definition ab_nan0 (g : grid) : bool := match g with q :: _ => if Rle_dec 1 (q 2%nat) then true else false | [] => false end.
Notation ab_turn0 := (turn ab_o0 ab_svd0 ab_speed0 ab_fill0 ab_advance0 ab_nan0 false [1] (1 / 100) 1 1 [ab_m0]).
Notation ab_run0 := (run ab_o0 ab_svd0 ab_speed0 ab_fill0 ab_advance0 ab_nan0 false [1] (1 / 100) 1 1 [ab_m0]).
Record ab_K (s : state) : Prop := ab_mkK {
  ab_k_u : exists q, s_u s = [q] /\ q 0%nat = 0 /\ q 2%nat = s_t s; ab_k_g : exists g, s_grids s = [g]; ab_k_m : s_masks s = [[true]];
  ab_k_len : blen (s_ret s) = 100%nat; ab_k_t : s_t s < 1; ab_k_push : INR (s_push s) <= 100 * s_t s < INR (s_push s) + 1 }.
Lemma ab_step0 g t c : t < 1 -> exists dt, timestep ab_speed0 [ab_m0] [[g]] [[true]] [1] (1 / 100) t 1 c 1 = Ok (Some dt) /\ 0 < dt <= 1 / 100 /\ t + dt <= 1.
Proof.
  intro T. assert (SH : shaped 1 [ab_m0] [[g]] [[true]]).
  { split; [reflexivity|]. split; [reflexivity|]. split; intros x [<-|[]]; reflexivity. }
  destruct (timestep_respects_cfl ab_speed0 1 [ab_m0] [[g]] [[true]] [1] (1 / 100) t 1 c SH) as (dt & E & L & P & B & _); [discriminate|lra|lra|].
  exists dt. split; [exact E|]. split; [|exact L]. split; [apply P, T|].
  assert (X := B 0%nat 0%nat g ab_m0 (fun _ => 1)). cbn [speed_sum] in X.
  assert (cfl_bound (1 / 100) c <= 1 / 100) by (unfold cfl_bound; destruct (Nat.leb c 5); lra).
  enough (dt * (1 / 1 + 0) <= cfl_bound (1 / 100) c) by lra. apply X.
  - split; [reflexivity|]. split; [reflexivity|]. split; eexists; split; reflexivity.
  - reflexivity.
Qed.
Lemma ab_turn_K s : ab_K s -> is_ub (ab_turn0 s) \/ exists s', ab_turn0 s = Ok (inl s') /\ ab_K s'.
Proof.
  intros [(q & EU & Q0 & Q2) (g & EG) EM BL T1 PU]. destruct (ab_step0 q (s_t s) (s_count s) T1) as (dt & ED & D1 & D2).
  unfold turn. cbv zeta. rewrite EG, EM, EU. cbn [LSET ab_o0 Nat.ltb Nat.leb bind List.length]. match goal with |- context [timestep ?a ?b ?c ?d ?e ?f ?g ?h ?i ?j] => replace (timestep a b c d e f g h i j) with (Ok (Some dt)) by (symmetry; exact ED) end. cbn [bind].
  set (q1 := set1 q 2 (q 2%nat + dt)).
  assert (EA : advance_all ab_advance0 [ab_m0] [([q] : grid)] [[true]] dt = Ok [([q1] : grid)]) by reflexivity. rewrite EA. cbn [bind get nth_error].
  assert (EL : limit_concentration ab_o0 [q1] = [q1]) by reflexivity. rewrite EL.
  assert (Q1 : q1 0%nat = 0) by exact Q0.
  assert (ER : renorm_distortion ab_o0 [ab_m0] [q1] = Ok [q1]).
  { unfold renorm_distortion. cbn [each_cell]. rewrite (renorm_cell_ok ab_o0 [ab_m0] eq_refl _ _ ab_m0) by reflexivity. cbn [mp_void ab_m0].
    rewrite Q1. destruct (Rlt_dec 0 0); [lra|]. reflexivity. }
  rewrite ER. cbn [bind]. rewrite andb_false_r. cbn [bind].
  assert (EC : contorted ab_o0 ab_svd0 1 [q1] = Ok false).
  { unfold contorted. change (Nat.ltb (V ab_o0) 14) with false. cbn [existsb]. unfold contorted_cell, ab_svd0. cbn [fst].
    destruct (Req_EM_T (0 * 0 * 0) 0); [reflexivity|lra]. }
  rewrite EC. cbn [bind].
  assert (QT : q1 2%nat = s_t s + dt) by (unfold q1; rewrite set1_same, Q2; reflexivity).
  assert (NN : ab_nan0 [q1] = if Rle_dec 1 (s_t s + dt) then true else false) by (unfold ab_nan0; rewrite QT; reflexivity).
  rewrite NN. assert (IS : INR (s_push s + 1) = INR (s_push s) + 1) by (rewrite plus_INR; cbn; ring). rewrite IS.
  assert (P100 : (s_push s < 100)%nat).
  { apply INR_lt. replace (INR 100) with 100 by (cbn; lra). lra. }
  destruct (Rle_dec ((INR (s_push s) + 1) / 100 * 1) (s_t s + dt)) as [W|W].
  - rewrite wr_ok by lia. cbn [bind]. destruct (Rle_dec 1 (s_t s + dt)) as [N1|N1].
    + left. (* 100 slots are full *)
      assert (E99 : s_push s = 99%nat). { assert (98 < s_push s)%nat; [|lia]. apply INR_lt. replace (INR 98) with 98 by (cbn; lra). lra. }
      rewrite E99. unfold wr at 1. cbn [blen]. rewrite BL. change (Nat.ltb 100 100) with false. cbv iota. eexists. reflexivity.
    + right. eexists. split; [reflexivity|]. split; cbn [s_u s_grids s_masks s_ret s_t s_push blen].
      * exists q1. auto.
      * eauto.
      * reflexivity.
      * exact BL.
      * lra.
      * rewrite S_INR. lra.
  - cbn [bind]. destruct (Rle_dec 1 (s_t s + dt)) as [N1|N1].
    + exfalso. apply W. assert (X : INR (s_push s + 1) <= INR 100) by (apply le_INR; lia). rewrite IS in X.
      replace (INR 100) with 100 in X by (rewrite INR_IZR_INZ; reflexivity). lra.
    + right. eexists. split; [reflexivity|]. split; cbn [s_u s_grids s_masks s_ret s_t s_push].
      * exists q1. auto.
      * eauto.
      * reflexivity.
      * exact BL.
      * lra.
      * lra.
Qed.
Lemma ab_run_K fuel : forall s, ab_K s -> ab_run0 fuel s = NoFuel \/ is_ub (ab_run0 fuel s).
Proof.
  induction fuel as [|fuel IH]; intros s H; cbn [run]; (destruct (Rlt_dec (s_t s) 1) as [L|L]; [|destruct H; lra]); [left; reflexivity|].
  destruct (ab_turn_K s H) as [[w E]|(s' & E & H')]; rewrite E; cbn [bind]; [right; eexists; reflexivity|apply IH, H'].
Qed.
(** However much fuel there is beyond 1000 turns, the run is undefined. *)
Theorem abort_in_last_percent_refuted : exists o svd speed fill advance nan dX CFL tf tol MPs u, 0 < CFL /\ 0 < tf /\
  (forall q d m, speed q d m <> None) /\ (forall m g k dt, is_ok (advance m g k dt)) /\
  forall fuel, (1000 <= fuel)%nat -> is_ub (iterator o svd speed fill advance nan false dX CFL tf tol MPs fuel u).
Proof.
  exists ab_o0, ab_svd0, ab_speed0, ab_fill0, ab_advance0, ab_nan0, [1], (1 / 100), 1, 1, [ab_m0], [fun _ => 0].
  split; [lra|]. split; [lra|]. split; [discriminate|]. split; [intros; eexists; reflexivity|]. intros fuel F.
  assert (HK : ab_K (init [ab_m0] [fun _ => 0])).
  { split; cbn; [exists (fun _ => 0); auto|eauto|reflexivity|reflexivity|lra|lra]. }
  destruct (ab_run_K fuel _ HK) as [N|U]; [|exact U]. exfalso.
  apply (run_terminates ab_o0 ab_svd0 ab_speed0 ab_fill0 ab_advance0 ab_nan0 false [1] (1 / 100) 1 1 [ab_m0] 1 [fun _ => 0] fuel);
    try lra; try discriminate; [| |exact N].
  - intros q m c H. cbn [speed_sum]. assert (X := H 0%nat ltac:(cbn; lia)). unfold ab_speed0 in X. injection X as <-. lra.
  - apply le_INR in F. replace (INR 1000) with 1000 in F by (rewrite INR_IZR_INZ; reflexivity). lra.
Qed.
Print Assumptions abort_in_last_percent_refuted.

(** With a zero wave speed the run is one turn; it completes, or aborts if the new state is invalid. *)
Lemma one_turn (nan : grid -> bool) (b : bool) : (forall g, nan g = b) -> exists s,
  iterator ab_o0 ab_svd0 (fun _ _ _ => Some 0) ab_fill0 ab_advance0 nan false [1] 1 1 1 [ab_m0] 1 [fun _ => 0] = Ok (s, b).
Proof.
  intro NB. set (q := (fun _ => 0) : vec).
  assert (ED : timestep (fun _ _ _ => Some 0) [ab_m0] [[q]] [[true]] [1] 1 0 1 0 1 = Ok (Some 1)).
  { assert (SH : shaped 1 [ab_m0] [[q]] [[true]]).
    { split; [reflexivity|]. split; [reflexivity|]. split; intros x [<-|[]]; reflexivity. }
    destruct (timestep_respects_cfl (fun _ _ _ => Some 0) 1 [ab_m0] [[q]] [[true]] [1] 1 0 1 0 SH) as (dt & E & _ & _ & _ & [->|X]); [discriminate|lra|lra| |].
    - rewrite Rminus_0_r in E. exact E.
    - destruct X as (mat & i & q' & m & c & _ & C & X). exfalso. cbn [speed_sum] in X.
      assert (C0 := C 0%nat ltac:(cbn; lia)). injection C0 as C0. rewrite <- C0 in X. unfold cfl_bound in X. cbn [Nat.leb] in X. lra. }
  unfold iterator, init. cbn [run s_t List.length repeat]. destruct (Rlt_dec 0 1); [|lra].
  unfold turn. cbv zeta. cbn [s_u s_grids s_masks s_t s_dt s_count s_push s_ret LSET ab_o0 Nat.ltb Nat.leb bind List.length]. fold q.
  match goal with |- context [timestep ?a ?b ?c ?d ?e ?f ?g ?h ?i ?j] => replace (timestep a b c d e f g h i j) with (Ok (Some 1) : res (option R)) by (symmetry; exact ED) end. cbn [bind]. set (q1 := set1 q 2 (q 2%nat + 1)).
  match goal with |- context [advance_all ?a ?b ?c ?d ?e] => replace (advance_all a b c d e) with (Ok [([q1] : grid)]) by reflexivity end. cbn [bind get nth_error].
  assert (EL : limit_concentration ab_o0 [q1] = [q1]) by reflexivity. rewrite EL.
  assert (ER : renorm_distortion ab_o0 [ab_m0] [q1] = Ok [q1]).
  { unfold renorm_distortion. cbn [each_cell]. rewrite (renorm_cell_ok ab_o0 [ab_m0] eq_refl _ _ ab_m0) by reflexivity. cbn [mp_void ab_m0].
    change (q1 0%nat) with 0. destruct (Rlt_dec 0 0); [lra|]. reflexivity. }
  rewrite ER. cbn [bind]. rewrite andb_false_r. cbn [bind].
  assert (EC : contorted ab_o0 ab_svd0 1 [q1] = Ok false).
  { unfold contorted. change (Nat.ltb (V ab_o0) 14) with false. cbn [existsb]. unfold contorted_cell, ab_svd0. cbn [fst].
    destruct (Req_EM_T (0 * 0 * 0) 0); [reflexivity|lra]. }
  rewrite EC. cbn [bind]. match goal with |- context [Rle_dec ?x ?y] => destruct (Rle_dec x y) as [W|W]; [|exfalso; apply W; cbn; lra] end.
  rewrite wr_ok by (cbn; lia). cbn [bind]. rewrite NB. destruct b.
  - rewrite wr_ok by (cbn; lia). cbn [bind]. rewrite wr_ok by (cbn; lia). cbn [bind]. eauto.
  - cbn [bind run s_t]. destruct (Rlt_dec (0 + 1) 1); [lra|]. cbn [s_ret]. rewrite wr_ok by (cbn; lia). cbn [bind]. eauto.
Qed.
Example completed_and_aborted_runs :
  (exists nan s, iterator ab_o0 ab_svd0 (fun _ _ _ => Some 0) ab_fill0 ab_advance0 nan false [1] 1 1 1 [ab_m0] 1 [fun _ => 0] = Ok (s, false)) /\
  (exists nan s, iterator ab_o0 ab_svd0 (fun _ _ _ => Some 0) ab_fill0 ab_advance0 nan false [1] 1 1 1 [ab_m0] 1 [fun _ => 0] = Ok (s, true)).
Proof.
  split; [destruct (one_turn (fun _ => false) false (fun _ => eq_refl)) as [s E]|destruct (one_turn (fun _ => true) true (fun _ => eq_refl)) as [s E]]; eauto.
Qed.
(** The hypotheses of termination hold of the example above. *)
Example run_hyps : (0 < 1 / 100) /\ (forall q m c, (forall d, (d < 1)%nat -> ab_speed0 q d m = Some (c d)) -> speed_sum c 0 [1] <= 1) /\
  1 < INR 1000 * (1 / 100 / 1 / 5) /\
  (forall m g k dt, ab_advance0 m g k dt <> NoFuel) /\ (forall g k v dt, ab_fill0 g k v dt <> NoFuel).
Proof.
  split; [lra|]. split. { intros q m c H. cbn [speed_sum]. assert (X := H 0%nat ltac:(lia)). injection X as <-. lra. }
  split; [rewrite INR_IZR_INZ; cbn; lra|]. split; intros; discriminate.
Qed.
