(** From windows to threads: the threads' updates, put together, are the serial stepper's. *)
From Coq Require Import Reals List Lia ZArith.
From Verif Require Import Base Options Sum WenoModel WenoProof FvModel FvProof GridModel StepperModel ThreadProof StepperProof.
Import List ListNotations.
Open Scope nat_scope.
Notation ext := extended_dimensions.

Lemma gather_ops_ok {A} (thr : nat -> res A) : forall n t f, (forall i, i < n -> thr (t + i) = Ok (f (t + i))) -> gather_ops thr n t = Ok (map f (seq t n)).
Proof.
  induction n as [|n IH]; intros t f H; cbn [gather_ops seq map]; [reflexivity|].
  pose proof (H 0 ltac:(lia)) as H0. rewrite Nat.add_0_r in H0. rewrite H0. cbn [bind]. rewrite (IH (S t) f); [reflexivity|].
  intros i Hi. replace (S t + i) with (t + S i) by lia. apply H. lia.
Qed.
Lemma gather_ops_inv {A} (thr : nat -> res A) : forall n t ls, gather_ops thr n t = Ok ls ->
  length ls = n /\ forall i l, nth_error ls i = Some l -> thr (t + i) = Ok l.
Proof.
  induction n as [|n IH]; intros t ls E; cbn [gather_ops] in E.
  - injection E as <-. split; [reflexivity|]. intros [|i] l H; discriminate.
  - apply bind_ok in E. destruct E as [l0 [E0 E]]. apply bind_ok in E. destruct E as [ls' [E1 [= <-]]]. destruct (IH _ _ E1) as [L H]. split; [cbn; lia|].
    intros [|i] l Hl; cbn in Hl; [injection Hl as <-; now rewrite Nat.add_0_r|]. rewrite Nat.add_succ_r. exact (H i l Hl).
Qed.

Lemma at_shift {T} o c (l : list (update T)) : at_cell (o + c) (map (fun p => (o + fst p, snd p)) l) = at_cell c l.
Proof.
  induction l as [|[a e] l IH]; [reflexivity|]. unfold at_cell in *. cbn [map filter fst snd].
  destruct (Nat.eqb_spec (o + a) (o + c)), (Nat.eqb_spec a c); try lia; cbn [map snd]; now rewrite IH.
Qed.
Lemma at_all {T} (e : T -> T) c : forall n lo, at_cell c (map (fun a => (a, e)) (seq lo n)) = if (Nat.leb lo c && Nat.ltb c (lo + n))%bool then [e] else [].
Proof.
  induction n as [|n IH]; intros lo; cbn [seq map].
  - destruct (Nat.leb_spec lo c), (Nat.ltb_spec c (lo + 0)); try reflexivity; lia.
  - transitivity ((if Nat.eqb lo c then [e] else []) ++ at_cell c (map (fun a => (a, e)) (seq (S lo) n))); [exact (at_cons c lo e _)|].
    rewrite IH. destruct (Nat.eqb_spec lo c), (Nat.leb_spec (S lo) c), (Nat.ltb_spec c (S lo + n)), (Nat.leb_spec lo c), (Nat.ltb_spec c (lo + S n)); cbn; try reflexivity; lia.
Qed.

Lemma at3 {T} c (a b d : list (update T)) : at_cell c (a ++ b ++ d) = at_cell c a ++ at_cell c b ++ at_cell c d.
Proof. now rewrite !at_app. Qed.

Section Threads.
Variable N : nat.
Notation upd_list := (list (update num)).
Variable ser : nat -> buf num -> buf bool -> list nat -> res upd_list.
Variables (ulen : nat) (ub : buf num) (mask : buf bool).
Notation thr nX n := (thread_updates N ser ulen ub mask nX n).

(** the addresses of a thread lie in its slab *)
Lemma thread_range nx rest n t l : thr (nx :: rest) n t = Ok l -> 0 < nx /\ slab_start nx n (t + 1) * (ulen / nx) <= ulen /\
  forall p, In p l -> slab_start nx n t * (ulen / nx) <= fst p < slab_start nx n (t + 1) * (ulen / nx).
Proof.
  intros E. unfold thread_updates in E. destruct (Nat.eqb_spec nx 0) as [|X]; [discriminate|]. split; [lia|]. cbv zeta in E.
  destruct (Nat.ltb_spec ulen (slab_start nx n (t + 1) * (ulen / nx))) as [|Le]; [discriminate|]. split; [exact Le|].
  apply bind_ok in E. destruct E as [ubs [_ E]]. apply bind_ok in E. destruct E as [ms [_ E]]. apply bind_ok in E. destruct E as [l0 [_ E]].
  match type of E with context [if ?b then _ else _] => destruct b eqn:EB; [|discriminate] end. injection E as <-. rewrite forallb_forall in EB.
  intros p Hp. apply in_map_iff in Hp. destruct Hp as [q [<- Hq]]. cbn [fst]. specialize (EB q Hq). apply Nat.ltb_lt in EB.
  rewrite Nat.mul_sub_distr_r in EB. lia.
Qed.

Lemma threads_disjoint nX n ops : gather_ops (thr nX n) n 0 = Ok ops -> disjoint num ops /\ (0 < n -> in_range num ops ulen).
Proof.
  intros E. destruct (gather_ops_inv _ _ _ _ E) as [L H]. cbn [Nat.add] in H.
  destruct nX as [|nx rest].
  { destruct ops as [|l ops]; [|specialize (H 0 l eq_refl); discriminate]. split; [intros [|i] j li lj p q Hi; discriminate|]. intros _ l p []. }
  split.
  - intros i j li lj p q Hi Hj Ip Iq Eq. destruct (thread_range _ _ _ _ _ (H i li Hi)) as [X [_ Ri]]. destruct (thread_range _ _ _ _ _ (H j lj Hj)) as [_ [_ Rj]].
    specialize (Ri p Ip). specialize (Rj q Iq). rewrite <- Eq in Rj. set (w := ulen / nx) in *.
    destruct (Nat.lt_trichotomy i j) as [C|[C|C]]; [|exact C|].
    + pose proof (Nat.mul_le_mono_r _ _ w (slab_le nx n (i + 1) j ltac:(lia))). lia.
    + pose proof (Nat.mul_le_mono_r _ _ w (slab_le nx n (j + 1) i ltac:(lia))). lia.
  - intros Hn l p Il Ip. destruct (In_nth_error _ _ Il) as [i Hi]. destruct (thread_range _ _ _ _ _ (H i l Hi)) as [X [B Rg]]. specialize (Rg p Ip). lia.
Qed.

End Threads.

Section P.
Variables (N : nat) (SIG : nat -> nat -> R) (LAMS LAMC EPS : R) (inv : stencil -> (nat -> R) -> nat -> R).
Hypothesis N1 : 1 <= N.
Variable prim : option ((num -> num) * (num -> num)).
Variable nc : bool.
Variable blk : Type.
Variable center : nat -> bool -> nat -> blk -> res (list (num -> num)).
Variable face : nat -> bool -> nat -> nat -> blk -> blk -> res ((num -> num) * (num -> num)).
Variable Phi : nat -> list num -> res (option (nat -> blk)).
Variable view : list num -> blk.
Variable mid : nat -> list num -> res blk.
Variable ode : num -> num.
Notation upd_list := (list (update num)).
Notation ader_updates := (ader_updates N SIG LAMS LAMC EPS inv prim nc blk center face Phi).
Notation split_updates := (split_updates N SIG LAMS LAMC EPS inv prim nc blk center face view mid ode).

(** what makes a serial stepper splittable into slabs *)
Definition local (ser : nat -> buf num -> buf bool -> list nat -> res upd_list) (rest : list nat) : Prop :=
  forall ub ub' u mask mask' o nx nx' l, o + nx' <= nx ->
    blen ub = ext (nx :: rest) N -> blen ub' = ext (nx' :: rest) N -> whole ub u -> window ub ub' (o * ext rest N) ->
    blen mask = ext (nx :: rest) 1 -> blen mask' = ext (nx' :: rest) 1 -> (forall a, a < blen mask -> bdat mask a <> None) -> window mask mask' (o * ext rest 1) ->
    ser (ext (nx :: rest) 0) ub mask (nx :: rest) = Ok l ->
    exists l', ser (ext (nx' :: rest) 0) ub' mask' (nx' :: rest) = Ok l' /\ (forall p, In p l' -> fst p < ext (nx' :: rest) 0) /\ (forall p, In p l -> fst p < ext (nx :: rest) 0) /\
      forall c, c < ext (nx' :: rest) 0 -> at_cell c l' = at_cell (o * ext rest 0 + c) l.

Lemma mul3 a b c : a * b * c = a * (b * c). Proof. ring. Qed.

Lemma ader_local rest : dims rest -> (rest <> [] -> nc = false) -> local (fun _ => ader_updates) rest.
Proof.
  intros Hd Hnc ub ub' u mask mask' o nx nx' l Ho L L' U W Lm Lm' Mi Wm E. unfold StepperModel.ader_updates in *. cbv zeta in *. cbn [length] in *.
  destruct (weno_window N SIG LAMS LAMC EPS inv N1 prim nc ub ub' u o nx nx' rest Hd Hnc Ho L L' U W) as [wh [wh' [Ew [Ew' [Lw [Lw' [Ww _]]]]]]].
  rewrite Ew in E. rewrite Ew'. cbn [bind] in *. apply bind_ok in E. destruct E as [qh [Eq E]]. rewrite <- Lm in Eq.
  destruct (predictor_window N N1 blk Phi (S (length rest)) _ wh wh' mask mask' (o * ext rest 1) qh Ww Wm ltac:(rewrite Lw', Lm'; reflexivity) Eq) as [qh' [Eq' [Lq [Lq' Wq]]]].
  rewrite Lm' in Eq'. rewrite Eq'. cbn [bind].
  apply (fv_window N N1 (center (S (length rest)) true) (face (S (length rest)) true) true qh qh' mask mask' o nx nx' rest l Hd Ho Lm Lm'); auto.
  - rewrite Lq, Lm. reflexivity.
  - rewrite Lq', Lm'. reflexivity.
Qed.

Lemma split_local HALF rest : dims rest -> (rest <> [] -> nc = false) -> local (split_updates HALF) rest.
Proof.
  intros Hd Hnc ub ub' u mask mask' o nx nx' l Ho L L' U W Lm Lm' Mi Wm E. unfold StepperModel.split_updates in *. cbv zeta in *. cbn [length] in *.
  assert (W' : window (bmap ode ub) (bmap ode ub') (o * ext rest N)).
  { destruct W as [WL WV]. split; cbn [bmap blen bdat]; [exact WL|]. intros a Ha. now rewrite WV. }
  destruct (weno_window N SIG LAMS LAMC EPS inv N1 prim nc (bmap ode ub) (bmap ode ub') _ o nx nx' rest Hd Hnc Ho L L' (bmap_whole ode ub u U) W') as [wh [wh' [Ew [Ew' [Lw [Lw' [Ww _]]]]]]].
  rewrite Ew in E. rewrite Ew'. cbn [bind] in *. apply bind_ok in E. destruct E as [qh [Eq E]]. rewrite <- Lm in Eq.
  destruct (midstepper_window N N1 blk view mid HALF (S (length rest)) _ wh wh' mask mask' (o * ext rest 1) qh Ww Wm ltac:(rewrite Lw', Lm'; reflexivity) Eq) as [qh' [Eq' [Lq [Lq' Wq]]]].
  rewrite Lm' in Eq'. rewrite Eq'. cbn [bind]. apply bind_ok in E. destruct E as [l0 [E0 [= <-]]].
  destruct (fv_window N N1 (center (S (length rest)) false) (face (S (length rest)) false) false qh qh' mask mask' o nx nx' rest l0 Hd Ho Lm Lm') as [l' [E' [B' [B A]]]]; auto.
  - cbn [nt_of]. rewrite Lq, Lm. lia.
  - cbn [nt_of]. rewrite Lq', Lm'. lia.
  - cbn [nt_of]. rewrite Nat.mul_1_r. exact Wq.
  - rewrite E'. cbn [bind]. eexists. split; [reflexivity|]. split; [|split].
    + intros p Hp. apply in_app_or in Hp. destruct Hp as [Hp|Hp]; [|apply in_app_or in Hp; destruct Hp as [Hp|Hp]; [apply B', Hp|]];
        apply in_map_iff in Hp; destruct Hp as [a [<- Ha]]; apply in_seq in Ha; cbn [fst]; lia.
    + intros p Hp. apply in_app_or in Hp. destruct Hp as [Hp|Hp]; [|apply in_app_or in Hp; destruct Hp as [Hp|Hp]; [apply B, Hp|]];
        apply in_map_iff in Hp; destruct Hp as [a [<- Ha]]; apply in_seq in Ha; cbn [fst]; lia.
    + intros c Hc. etransitivity; [exact (at3 c _ l' _)|]. symmetry. etransitivity; [exact (at3 _ _ l0 _)|]. symmetry. rewrite A by exact Hc.
      rewrite (at_all ode c), (at_all ode (o * ext rest 0 + c)).
      rewrite (proj2 (Nat.leb_le 0 c)), (proj2 (Nat.leb_le 0 (o * ext rest 0 + c))), (proj2 (Nat.ltb_lt c (0 + ext (nx' :: rest) 0))), (proj2 (Nat.ltb_lt (o * ext rest 0 + c) (0 + ext (nx :: rest) 0))); try lia; [reflexivity|].
      rewrite !ext_cons, !Nat.mul_0_r, !Nat.add_0_r in *. assert (H : (o + nx') * ext rest 0 <= nx * ext rest 0) by (apply Nat.mul_le_mono_r; lia). rewrite Nat.mul_add_distr_r in H. lia.
Qed.

Section Serial.
Variable ser : nat -> buf num -> buf bool -> list nat -> res upd_list.
Variables (ulen : nat) (ub : buf num) (mask : buf bool).
Notation thr nX n := (thread_updates N ser ulen ub mask nX n).

(** a local serial stepper: every thread succeeds, and the updates of every cell are the serial ones in the serial order *)
Lemma threads_serial nx rest n u l : dims rest -> local ser rest -> 0 < nx -> 0 < n ->
  ulen = ext (nx :: rest) 0 -> blen ub = ext (nx :: rest) N -> blen mask = ext (nx :: rest) 1 -> whole ub u -> (forall a, a < blen mask -> bdat mask a <> None) ->
  ser ulen ub mask (nx :: rest) = Ok l ->
  exists ops, gather_ops (thr (nx :: rest) n) n 0 = Ok ops /\ (forall p, In p l -> fst p < ulen) /\ forall c, c < ulen -> at_cell c (concat ops) = at_cell c l.
Proof.
  intros Hd HL Hx Hn Lu Lb Lm U Mi E.
  assert (R0 : ulen / nx = ext rest 0) by (rewrite Lu, ext_cons, Nat.mul_0_r, Nat.add_0_r, Nat.mul_comm; apply Nat.div_mul; lia).
  assert (Rb : blen ub / (nx + 2 * N) = ext rest N) by (rewrite Lb, ext_cons, Nat.mul_comm; apply Nat.div_mul; lia).
  assert (Rm : blen mask / (nx + 2) = ext rest 1) by (rewrite Lm, ext_cons, Nat.mul_comm; apply Nat.div_mul; lia).
  assert (T : forall t, t < n -> exists l', thr (nx :: rest) n t = Ok l' /\ (forall p, In p l -> fst p < ulen) /\
     forall c, slab_start nx n t * ext rest 0 <= c < slab_start nx n (t + 1) * ext rest 0 -> at_cell c l' = at_cell c l).
  { intros t Ht. unfold thread_updates. rewrite (proj2 (Nat.eqb_neq nx 0)) by lia. cbv zeta. rewrite R0, Rb, Rm.
    pose proof (slab_bound nx n (t + 1) Hn ltac:(lia)) as F. pose proof (slab_le nx n t (t + 1) ltac:(lia)) as G.
    set (s := slab_start nx n t) in *. set (f := slab_start nx n (t + 1)) in *.
    rewrite (proj2 (Nat.ltb_ge ulen (f * ext rest 0))).
    2:{ rewrite Lu, ext_cons, Nat.mul_0_r, Nat.add_0_r. apply Nat.mul_le_mono_r, F. }
    destruct (segment_ok ub (s * ext rest N) ((f + 2 * N - s) * ext rest N)) as [ub' [Eb [Lb' Wb]]].
    { rewrite Lb, ext_cons, <- Nat.mul_add_distr_r. apply Nat.mul_le_mono_r. lia. }
    destruct (segment_ok mask (s * ext rest 1) ((f + 2 - s) * ext rest 1)) as [mask' [Em [Lm' Wm]]].
    { rewrite Lm, ext_cons, <- Nat.mul_add_distr_r. apply Nat.mul_le_mono_r. lia. }
    rewrite Eb. cbn [bind]. rewrite Em. cbn [bind].
    assert (E0 : ext (f - s :: rest) 0 = (f - s) * ext rest 0) by (rewrite ext_cons; f_equal; lia).
    rewrite Lu in E.
    destruct (HL ub ub' u mask mask' s nx (f - s) l) as [l' [E' [B' [B A]]]]; auto; try lia.
    - rewrite Lb', ext_cons. f_equal. lia.
    - rewrite Lm', ext_cons. f_equal. lia.
    - rewrite E0 in E'. rewrite E'. cbn [bind].
      rewrite (proj2 (forallb_forall (fun p => Nat.ltb (fst p) ((f - s) * ext rest 0)) l')).
      2:{ intros p Hp. apply Nat.ltb_lt. rewrite <- E0. apply B', Hp. }
      eexists. split; [reflexivity|]. split; [intros p Hp; rewrite Lu; apply B, Hp|].
      intros c Hc. replace c with (s * ext rest 0 + (c - s * ext rest 0)) by lia. rewrite at_shift. apply A. rewrite E0, Nat.mul_sub_distr_r. lia. }
  set (L := fun t => match thr (nx :: rest) n t with Ok l' => l' | _ => [] end).
  assert (TL : forall t, t < n -> thr (nx :: rest) n t = Ok (L t) /\ forall c, slab_start nx n t * ext rest 0 <= c < slab_start nx n (t + 1) * ext rest 0 -> at_cell c (L t) = at_cell c l).
  { intros t Ht. unfold L. destruct (T t Ht) as [l' [-> [_ A]]]. auto. }
  exists (map L (seq 0 n)). split; [apply gather_ops_ok; intros i Hi; apply TL, Hi|]. split; [destruct (T 0 Hn) as [_ [_ [B _]]]; exact B|].
  intros c Hc.
  assert (W0 : ext rest 0 <> 0) by (intros Z; rewrite Lu, ext_cons, Z, Nat.mul_0_r in Hc; lia).
  destruct (slab_find nx n (c / ext rest 0) Hn) as [t [Ht [S1 S2]]].
  { apply Nat.div_lt_upper_bound; [exact W0|]. rewrite Lu, ext_cons, Nat.mul_0_r, Nat.add_0_r in Hc. lia. }
  assert (C1 : slab_start nx n t * ext rest 0 <= c) by (pose proof (Nat.mul_div_le c (ext rest 0) W0); pose proof (Nat.mul_le_mono_r _ _ (ext rest 0) S1); lia).
  assert (C2 : c < slab_start nx n (t + 1) * ext rest 0).
  { pose proof (Nat.mul_succ_div_gt c (ext rest 0) W0). pose proof (Nat.mul_le_mono_r _ _ (ext rest 0) S2). lia. }
  rewrite <- (proj2 (TL t Ht) c (conj C1 C2)).
  transitivity (flat_map (fun i => at_cell c (L i)) (seq 0 n)).
  { rewrite <- flat_map_concat_map. exact (at_flat c L (seq 0 n)). }
  apply (flat_one (fun i => at_cell c (L i))); [exact Ht|]. intros i Hi Ne. apply at_none. intros p Hp Ep.
  destruct (thread_range _ _ _ _ _ _ _ _ _ _ (proj1 (TL i Hi))) as [_ [_ Rg]]. specialize (Rg p Hp). rewrite R0 in Rg. apply Ne.
  destruct (Nat.lt_trichotomy i t) as [C|[C|C]]; [|exact C|].
  + pose proof (Nat.mul_le_mono_r _ _ (ext rest 0) (slab_le nx n (i + 1) t ltac:(lia))). lia.
  + pose proof (Nat.mul_le_mono_r _ _ (ext rest 0) (slab_le nx n (t + 1) i ltac:(lia))). lia.
Qed.
End Serial.
End P.
