(** Lemmas about solvers/iterator.cpp. *)
From Coq Require Import Reals ZArith Lra Psatz Lia List.
Import ListNotations.
From Verif Require Import Base Options Mat3 PhysModel UtilsModel IterModel IterSpec UtilsProof.
Open Scope R_scope.

Lemma shaped_get : forall n MPs grids masks mat i, shaped n MPs grids masks -> (mat < List.length MPs)%nat -> (i < n)%nat ->
  exists m g k q b, get MPs mat = Ok m /\ get grids mat = Ok g /\ get masks mat = Ok k /\ get g i = Ok q /\ get k i = Ok b /\
    nth_error MPs mat = Some m /\ nth_error grids mat = Some g /\ nth_error masks mat = Some k /\ nth_error g i = Some q /\ nth_error k i = Some b.
Proof.
  intros n MPs grids masks mat i (LG & LM & HG & HM) Hm Hi.
  destruct (get_ok MPs mat Hm) as (m & A1 & A2). destruct (get_ok grids mat ltac:(lia)) as (g & B1 & B2).
  destruct (get_ok masks mat ltac:(lia)) as (k & C1 & C2).
  destruct (get_ok g i) as (q & D1 & D2). { rewrite (HG g); [exact Hi|]. eapply nth_error_In, B2. }
  destruct (get_ok k i) as (b & E1 & E2). { rewrite (HM k); [exact Hi|]. eapply nth_error_In, C2. }
  exists m, g, k, q, b. repeat split; assumption.
Qed.

(** ** timestep *)
Section Rate.
Variable speed : vec -> nat -> matpar -> option R.
Lemma rate_from_finite : forall c q m dX d a, (forall e, (d <= e < d + List.length dX)%nat -> speed q e m = Some (c e)) ->
  rate_from speed d dX (Some a) q m = Some (a + speed_sum c d dX).
Proof.
  intros c q m. induction dX as [|h dX IH]; cbn; intros d a H; [f_equal; ring|].
  rewrite (H d) by lia. rewrite IH by (intros; apply H; lia). f_equal. ring.
Qed.
Lemma rate_finite : forall c q m dX, (forall e, (e < List.length dX)%nat -> speed q e m = Some (c e)) ->
  rate speed dX q m = Some (speed_sum c 0 dX).
Proof. intros c q m dX H. unfold rate. rewrite (rate_from_finite c); [f_equal; ring|]. intros; apply H; lia. Qed.

Lemma smax_ge : forall a x, a <= smax a x.
Proof. intros a [x|]; unfold smax, cmax; [destruct (Rlt_dec a x)|]; lra. Qed.
Lemma smax_some : forall a x, x <= smax a (Some x).
Proof. intros a x; unfold smax, cmax; destruct (Rlt_dec a x); lra. Qed.
Lemma smax_is : forall a x, smax a x = a \/ x = Some (smax a x).
Proof. intros a [x|]; unfold smax, cmax; [destruct (Rlt_dec a x)|]; auto. Qed.

Variables (MPs : list matpar) (grids : list grid) (masks : list (list bool)) (dX : list R) (n : nat).
Hypothesis SH : shaped n MPs grids masks.
Definition attained (MAX : R) : Prop := MAX = 0 \/ exists mat i q m, active MPs grids masks mat i q m /\ rate speed dX q m = Some MAX.
Lemma max_rate_ok : MPs <> [] -> exists MAX, max_rate speed MPs grids masks dX (List.length MPs) = Ok MAX /\ 0 <= MAX /\ attained MAX /\
  forall mat i q m r, active MPs grids masks mat i q m -> rate speed dX q m = Some r -> r <= MAX.
Proof.
  intro NE. destruct SH as (LG & LM & HG & HM). unfold max_rate.
  assert (N0 : (0 < List.length MPs)%nat) by (destruct MPs; [congruence|cbn; lia]).
  destruct (get_ok grids 0 ltac:(lia)) as (g0 & G0 & G0'). rewrite G0. cbn [bind].
  rewrite (HG g0) by (eapply nth_error_In, G0').
  set (P := fun (mm : nat) (MAX : R) => 0 <= MAX /\ attained MAX /\ forall mat i q m r, (mat < mm)%nat ->
    active MPs grids masks mat i q m -> rate speed dX q m = Some r -> r <= MAX).
  match goal with |- exists MAX, for_loop ?k 0 ?f 0 = _ /\ _ => destruct (for_loop_inv P k 0%nat f 0) as (MAX & E & P1 & P2 & P3) end.
  - split; [lra|]. split; [left; reflexivity|]. intros. lia.
  - intros mat s Hmat (Q1 & Q2 & Q3). destruct (get_ok MPs mat ltac:(lia)) as (m & M1 & M2). rewrite M1. cbn [bind].
    destruct (mp_void m) eqn:VO.
    { exists s. split; [reflexivity|]. split; [exact Q1|]. split; [exact Q2|]. intros mat' i q m' r Hl A.
      destruct (Nat.eq_dec mat' mat) as [->|]; [|apply (Q3 mat' i q m'); [lia|exact A]].
      destruct A as (A1 & A2 & _). rewrite M2 in A1. injection A1 as <-. congruence. }
    set (R := fun (ii : nat) (MAX : R) => 0 <= MAX /\ attained MAX /\ s <= MAX /\ forall i q m' r, (i < ii)%nat ->
      active MPs grids masks mat i q m' -> rate speed dX q m' = Some r -> r <= MAX).
    match goal with |- exists s', for_loop ?k 0 ?f s = _ /\ _ => destruct (for_loop_inv R k 0%nat f s) as (s' & E & R1 & R2 & R3 & R4) end.
    + split; [exact Q1|]. split; [exact Q2|]. split; [lra|]. intros. lia.
    + intros i x Hi (S1 & S2 & S3 & S4).
      destruct (shaped_get n MPs grids masks mat i SH ltac:(lia) ltac:(lia)) as (m0 & g & k & q & b & _ & E2 & E3 & E4 & E5 & F1 & F2 & F3 & F4 & F5).
      rewrite M2 in F1. injection F1 as <-. rewrite E3. cbn [bind]. rewrite E5. cbn [bind]. destruct b.
      * rewrite E2. cbn [bind]. rewrite E4. cbn [bind]. eexists. split; [reflexivity|].
        assert (AC : active MPs grids masks mat i q m) by (repeat split; eauto).
        assert (GE := smax_ge x (rate speed dX q m)). split; [lra|]. split.
        { destruct (smax_is x (rate speed dX q m)) as [->|Eq]; [exact S2|]. right. exists mat, i, q, m. auto. }
        split; [lra|]. intros i' q' m' r Hl A Er. destruct (Nat.eq_dec i' i) as [->|].
        { destruct A as (A1 & _ & _ & g' & A4 & A5). assert (m' = m) by congruence. assert (g' = g) by congruence. subst.
          assert (q' = q) by congruence. subst. rewrite Er. apply smax_some. }
        specialize (S4 i' q' m' r ltac:(lia) A Er). lra.
      * exists x. split; [reflexivity|]. split; [exact S1|]. split; [exact S2|]. split; [exact S3|]. intros i' q' m' r Hl A Er.
        destruct (Nat.eq_dec i' i) as [->|]; [|apply (S4 i' q' m'); [lia|exact A|exact Er]].
        destruct A as (_ & _ & (k' & A2 & A3) & _). assert (k' = k) by congruence. subst. congruence.
    + exists s'. split; [exact E|]. split; [exact R1|]. split; [exact R2|]. intros mat' i q m' r Hl A Er.
      destruct (Nat.eq_dec mat' mat) as [->|].
      * apply (R4 i q m'); [|exact A|exact Er]. destruct A as (_ & _ & _ & g & A4 & A5).
        rewrite <- (HG g) by (eapply nth_error_In, A4). apply nth_error_Some. congruence.
      * specialize (Q3 mat' i q m' r ltac:(lia) A Er). lra.
  - exists MAX. split; [exact E|]. split; [exact P1|]. split; [exact P2|]. intros mat i q m r A. apply (P3 mat i q m); [|exact A].
    destruct A as (A1 & _). apply nth_error_Some. congruence.
Qed.
End Rate.

(** ** make_u *)
Section MakeU.
Variables (o : options) (MPs : list matpar) (grids : list grid) (masks : list (list bool)) (n : nat).
Hypothesis SH : shaped n MPs grids masks.
Hypothesis NM : (LSET o < List.length MPs)%nat.
Notation lo := (V o - LSET o)%nat.

Lemma rsum_over_app : forall f l a, rsum_over f (l ++ [a]) = rsum_over f l + f a.
Proof. induction l as [|b l IH]; cbn; intro a; [ring|rewrite IH; ring]. Qed.
Lemma covering_S : forall k i, covering masks (S k) i = covering masks k i ++ (if nth i (nth k masks []) false then [k] else []).
Proof. intros k i. unfold covering. rewrite seq_S, filter_app. cbn. destruct (nth i (nth k masks []) false); reflexivity. Qed.

Lemma sums_ok : forall i, (i < n)%nat -> exists s cnt,
  for_loop (List.length grids) 0 (fun mat '((s, n) : vec * nat) =>
      m <- get masks mat ;; b <- get m i ;;
      if (b : bool) then g <- get grids mat ;; c <- get g i ;; Ok ((fun k => s k + c (lo + k)%nat) : vec, S n) else Ok (s, n))
    ((fun _ => 0) : vec, O) = Ok (s, cnt) /\
  cnt = List.length (covering masks (List.length MPs) i) /\
  forall k, s k = rsum_over (fun mat => cell_of grids mat i (lo + k)%nat) (covering masks (List.length MPs) i).
Proof.
  intros i Hi. assert (LG : List.length grids = List.length MPs) by apply SH. rewrite LG.
  set (P := fun (mm : nat) (p : vec * nat) => snd p = List.length (covering masks mm i) /\
     forall k, fst p k = rsum_over (fun mat => cell_of grids mat i (lo + k)%nat) (covering masks mm i)).
  match goal with |- exists s cnt, for_loop ?k 0 ?f ?s0 = _ /\ _ => destruct (for_loop_inv P k 0%nat f s0) as ([s c] & E & P1 & P2) end.
  - split; reflexivity.
  - intros mat [s c] Hm (P1 & P2). cbn [fst snd] in *.
    destruct (shaped_get n MPs grids masks mat i SH ltac:(lia) Hi) as (m0 & g & k & q & b & _ & E2 & E3 & E4 & E5 & F1 & F2 & F3 & F4 & F5).
    rewrite E3. cbn [bind]. rewrite E5. cbn [bind].
    assert (B : nth i (nth mat masks []) false = b).
    { rewrite (nth_error_nth masks mat _ F3). apply nth_error_nth, F5. }
    assert (C : cell_of grids mat i = q).
    { unfold cell_of. rewrite (nth_error_nth grids mat _ F2). apply nth_error_nth, F4. }
    destruct b.
    + rewrite E2. cbn [bind]. rewrite E4. cbn [bind]. eexists. split; [reflexivity|]. split; cbn [fst snd].
      * change (1 + mat)%nat with (S mat). rewrite covering_S, B, app_length. cbn. lia.
      * intro j. change (1 + mat)%nat with (S mat). rewrite covering_S, B, rsum_over_app, P2, C. reflexivity.
    + eexists. split; [reflexivity|]. split; cbn [fst snd]; change (1 + mat)%nat with (S mat); rewrite covering_S, B, app_nil_r; auto.
  - exists s, c. split; [exact E|]. split; [exact P1|exact P2].
Qed.

(** the averaged level set [k] of cell [i] whose previous state is [q] *)
Definition averaged (q : vec) (i k : nat) : R :=
  let c := covering masks (List.length MPs) i in
  match c with [] => q (lo + k)%nat | _ => rsum_over (fun mat => cell_of grids mat i (lo + k)%nat) c / INR (List.length c) end.
Lemma LV : (LSET o <= V o)%nat. Proof. unfold V. lia. Qed.
Lemma make_u_cell_ok : forall i q, (i < n)%nat -> exists q', make_u_cell o MPs grids masks i q = Ok q' /\
  (forall k, (k < LSET o)%nat -> q' (lo + k)%nat = averaged q i k) /\
  (forall k, (V o <= k)%nat -> q' k = q k) /\
  exists m, nth_error MPs (get_material_index o q') = Some m /\
    forall k, (k < lo)%nat -> q' k = if mp_void m then 0 else cell_of grids (get_material_index o q') i k.
Proof.
  intros i q Hi. unfold make_u_cell. cbv zeta. destruct (sums_ok i Hi) as (s & cnt & E & EC & ES). rewrite E. cbn [bind].
  assert (VL := LV).
  set (q1 := if Nat.ltb 0 cnt then setseg q lo (LSET o) (fun k => s k / INR cnt) else q).
  assert (Q1 : forall k, (k < LSET o)%nat -> q1 (lo + k)%nat = averaged q i k).
  { intros k Hk. unfold q1, averaged. rewrite EC. destruct (covering masks (List.length MPs) i) as [|a l] eqn:CV; [reflexivity|].
    cbn [List.length Nat.ltb Nat.leb]. rewrite setseg_in by lia. replace (lo + k - lo)%nat with k by lia.
    rewrite ES, ?CV. reflexivity. }
  assert (Q2 : forall k, (k < lo \/ V o <= k)%nat -> q1 k = q k).
  { intros k Hk. unfold q1. destruct (Nat.ltb 0 cnt); [apply setseg_out; lia|reflexivity]. }
  assert (MI : (get_material_index o q1 < List.length MPs)%nat) by (assert (B := material_bound o q1); lia).
  assert (fin : forall f, exists q', q' = setseg q1 0 lo f /\ (forall k, (k < LSET o)%nat -> q' (lo + k)%nat = averaged q i k) /\
    (forall k, (V o <= k)%nat -> q' k = q k) /\ get_material_index o q' = get_material_index o q1 /\ forall k, (k < lo)%nat -> q' k = f k).
  { intro f. eexists. split; [reflexivity|]. split; [intros k Hk; rewrite setseg_out by lia; auto|].
    split; [intros k Hk; rewrite setseg_out by lia; apply Q2; lia|].
    split; [apply material_ext; intros k Hk; apply setseg_out; lia|]. intros k Hk. rewrite setseg_in by lia. f_equal. lia. }
  destruct (shaped_get n MPs grids masks _ i SH MI Hi) as (m & g & k0 & c & b & E1 & E2 & E3 & E4 & E5 & F1 & F2 & F3 & F4 & F5).
  rewrite E1. cbn [bind]. destruct (mp_void m) eqn:VO.
  - destruct (fin (fun _ => 0)) as (q' & Eq & A & B & C & D). exists q'. rewrite Eq at 1. split; [reflexivity|]. split; [exact A|].
    split; [exact B|]. exists m. rewrite C. split; [exact F1|]. rewrite VO. exact D.
  - rewrite E2. cbn [bind]. rewrite E4. cbn [bind]. destruct (fin c) as (q' & Eq & A & B & C & D). exists q'. rewrite Eq at 1.
    split; [reflexivity|]. split; [exact A|]. split; [exact B|]. exists m. rewrite C. split; [exact F1|]. rewrite VO.
    intros k Hk. rewrite D by exact Hk. unfold cell_of. rewrite (nth_error_nth grids _ _ F2). now rewrite (nth_error_nth g _ _ F4).
Qed.
End MakeU.
