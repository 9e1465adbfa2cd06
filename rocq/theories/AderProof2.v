(** The whole ADER step as a finite volume update of the predictor's blocks; blocks of periodic images are equal. *)
From Coq Require Import Reals Lia ZArith.
From Verif Require Import Base Options Sum EqModel EqProof FvModel FvBody FvProof FvProof2 WenoModel WenoProof StepperModel StepperProof GridModel AderModel AderProof.
Import List ListNotations.
Open Scope nat_scope.

Lemma collect_length {A} : forall n (f : nat -> res A) l, collect n f = Ok l -> length l = n.
Proof.
  induction n as [|n IH]; intros f l E; cbn [collect] in E; [injection E as <-; reflexivity|].
  apply bind_ok in E. destruct E as [l0 [E0 E]]. apply bind_ok in E. destruct E as [a [_ E]]. injection E as <-.
  rewrite app_length, (IH _ _ E0). cbn. lia.
Qed.

Section A.
Variable o : options.
Variable ph : phys.
Variables NODES WGHTS : nat -> R.
Variables ENDVALS DERVALS : nat -> nat -> R.
Variables (FLUX : nat) (dt : R) (dX : nat -> R).
Variables SRC TM : bool.   (* SOURCES, TIME *)
Hypothesis HV : VISCOUS o = true.
Hypothesis HF : FLUX < 3.
Hypothesis D0 : dX 0 <> 0%R.
Hypothesis D1 : dX 1 <> 0%R.
Notation cnum := (center_num o ph WGHTS DERVALS dt dX).
Notation fnum := (face_num o ph NODES WGHTS ENDVALS FLUX dt dX).
Notation step := (fv_step o ph NODES WGHTS ENDVALS DERVALS SRC TM FLUX dt dX).

Definition zblk : nodal := fun _ _ => 0%R.
Definition unwrap (b : option nodal) : nodal := match b with Some q => q | None => zblk end.
Definition strip (qh : buf (option nodal)) : buf nodal := mkbuf (blen qh) (fun a => Some (match bdat qh a with Some b => unwrap b | None => zblk end)).
Definition Rn (x : num) (y : vec) : Prop := match x with Some v => v = y | None => True end.
Definition cvec (ndim : nat) (t : nat) (q : nodal) : res (list (vec -> vec)) :=
  match ndim with 1 => center1 o ph WGHTS DERVALS SRC TM dt (dX 0) t q | _ => center2 o ph WGHTS DERVALS SRC TM dt (dX 0) (dX 1) t q end.
Definition fvec (ndim d t : nat) (l r : nodal) : res ((vec -> vec) * (vec -> vec)) :=
  match ndim with 1 => face1 o ph NODES WGHTS ENDVALS TM FLUX dt (dX 0) d t l r | _ => face2 o ph NODES WGHTS ENDVALS TM FLUX dt (dX 0) (dX 1) d t l r end.

Lemma step_is nX : (length nX = 1 \/ length nX = 2) -> forall u rec mask, step u rec mask nX = fv_launcher vec nodal (N o) (cvec (length nX)) (fvec (length nX)) TM u rec mask nX.
Proof using. intros H u rec mask. destruct nX as [|nx [|ny [|z r]]]; cbn in H; try (exfalso; destruct H; discriminate); reflexivity. Qed.

Lemma cvec_ok ndim t q : 1 <= ndim <= 2 -> exists l, cvec ndim t q = Ok l /\ length l = N o ^ ndim.
Proof using HV HF.
  intros H. assert (C : ndim = 1 \/ ndim = 2) by lia. unfold cvec. destruct C as [-> | ->].
  - destruct (center1_ok o ph HV WGHTS DERVALS SRC TM FLUX dt HF (dX 0) t q) as [l [E _]]. exists l. split; [exact E|]. apply collect_length in E. cbn. lia.
  - destruct (center2_ok o ph HV WGHTS DERVALS SRC TM FLUX dt HF (dX 0) (dX 1) t q) as [l [E _]]. exists l. split; [exact E|]. apply collect_length in E. cbn. lia.
Qed.
Lemma fvec_ok ndim d t l r : d < 2 -> exists el er, fvec ndim d t l r = Ok (el, er).
Proof using HV HF D0 D1.
  intros Hd. unfold fvec. destruct (Nat.eq_dec ndim 1) as [->|Ne].
  - destruct (face1_ok o ph HV NODES WGHTS ENDVALS TM FLUX dt HF (dX 0) d t l r D0) as [el [er [E _]]]. eauto.
  - destruct (face2_ok o ph HV NODES WGHTS ENDVALS TM FLUX dt HF (dX 0) (dX 1) d t l r Hd) as [el [er [E _]]]; [destruct d; assumption|].
    exists el, er. destruct ndim as [|[|n]]; [exact E|lia|exact E].
Qed.

Lemma center_sim ndim : 1 <= ndim <= 2 -> forall t b q l1, q = unwrap b -> cnum ndim SRC TM t b = Ok l1 -> exists l2, cvec ndim t q = Ok l2 /\ Forall2 (Re _ _ Rn) l1 l2.
Proof using HV HF.
  intros Hn t b q l1 -> E. destruct b as [q|]; cbn [unwrap center_num] in *.
  - apply bind_ok in E. destruct E as [l [El E]]. injection E as <-. exists l. split; [exact El|].
    clear El. induction l as [|e l IH]; cbn [map]; constructor; [|exact IH]. intros [x|] y H; cbn in *; [now subst|exact I].
  - injection E as <-. destruct (cvec_ok ndim t zblk Hn) as [l [El Ll]]. exists l. split; [exact El|]. rewrite <- Ll. clear El Ll.
    induction l as [|e l IH]; cbn [length repeat]; constructor; [|exact IH]. intros x y _. exact I.
Qed.
Lemma face_sim ndim : 1 <= ndim <= 2 -> forall d t a1 b1 a2 b2 e1 g1, d < 2 -> a2 = unwrap a1 -> b2 = unwrap b1 -> fnum ndim TM d t a1 b1 = Ok (e1, g1) ->
  exists e2 g2, fvec ndim d t a2 b2 = Ok (e2, g2) /\ Re _ _ Rn e1 e2 /\ Re _ _ Rn g1 g2.
Proof using HV HF D0 D1.
  intros Hn d t a1 b1 a2 b2 e1 g1 Hd -> -> E.
  assert (K : e1 = nan_cell /\ g1 = nan_cell \/ exists e2 g2, fvec ndim d t (unwrap a1) (unwrap b1) = Ok (e2, g2) /\ e1 = option_map e2 /\ g1 = option_map g2).
  { destruct a1 as [a|], b1 as [b|]; cbn [face_num unwrap] in *; try (left; injection E as <- <-; auto; fail).
    right. apply bind_ok in E. destruct E as [[e g] [Ee E]]. injection E as <- <-. exists e, g. auto. }
  destruct K as [[-> ->]|[e2 [g2 [E2 [-> ->]]]]].
  - destruct (fvec_ok ndim d t (unwrap a1) (unwrap b1) Hd) as [e2 [g2 E2]]. exists e2, g2. split; [exact E2|]. split; intros x y _; exact I.
  - exists e2, g2. split; [exact E2|]. split; intros [x|] y H; cbn in *; try exact I; now subst.
Qed.
Lemma strip_rd qh a b : rd qh a = Ok b -> exists q, rd (strip qh) a = Ok q /\ q = unwrap b.
Proof using HF.
  unfold rd, strip. cbn [blen bdat]. destruct (Nat.ltb a (blen qh)); [|discriminate]. destruct (bdat qh a); [|discriminate]. intros E. injection E as ->. eauto.
Qed.

End A.

Section B.
Variable o : options.
Variable ph : phys.
Variables NODES WGHTS : nat -> R.
Variables ENDVALS DERVALS : nat -> nat -> R.
Variables (FLUX : nat) (dt : R) (dX : nat -> R).
Hypothesis HV : VISCOUS o = true.
Hypothesis HF : FLUX < 3.
Hypothesis D0 : dX 0 <> 0%R.
Hypothesis D1 : dX 1 <> 0%R.
Notation cnum := (center_num o ph WGHTS DERVALS dt dX).
Notation fnum := (face_num o ph NODES WGHTS ENDVALS FLUX dt dX).
Notation step := (fv_step o ph NODES WGHTS ENDVALS DERVALS true true FLUX dt dX).
Notation cv := (cvec o ph WGHTS DERVALS dt dX true true).
Notation fv := (fvec o ph NODES WGHTS ENDVALS FLUX dt dX true).
Variables (SIG : nat -> nat -> R) (LAMS LAMC EPS : R) (inv : stencil -> (nat -> R) -> nat -> R).
Variable prim : option ((num -> num) * (num -> num)).
Variable Phi : nat -> list num -> res (option (nat -> option nodal)).
Notation ader := (ader_with o ph NODES WGHTS ENDVALS DERVALS FLUX dt dX SIG LAMS LAMC EPS inv prim Phi).
Notation weno := (weno_launcher (N o) SIG LAMS LAMC EPS inv prim (NO_CORNERS o)).

Lemma ader_is_fv u ub mask nX w u2 : (length nX = 1 \/ length nX = 2) -> ader u ub mask nX = Ok w -> Ru _ _ Rn u u2 ->
  exists wh qh w2, weno (balloc (extended_dimensions nX 1 * N o ^ length nX)) ub nX = Ok wh /\
    predictor (N o) (option nodal) Phi (length nX) (N o ^ length nX) (balloc (extended_dimensions nX 1 * N o)) wh mask = Ok qh /\
    step u2 (strip qh) mask nX = Ok w2 /\ Ru _ _ Rn w w2.
Proof using HV HF D0 D1.
  intros Hn E U. unfold ader_with, ader_stepper in E. apply bind_ok in E. destruct E as [l1 [El Ew]]. unfold ader_updates in El.
  apply bind_ok in El. destruct El as [wh [Ewh El]]. apply bind_ok in El. destruct El as [qh [Eqh El]]. exists wh, qh.
  destruct (fv_sim num (option nodal) vec nodal (N o) _ _ (cv (length nX)) (fv (length nX)) Rn (fun b q => q = unwrap b)
     (center_sim o ph WGHTS DERVALS FLUX dt dX true true HV HF (length nX) ltac:(lia)) (face_sim o ph NODES WGHTS ENDVALS FLUX dt dX true HV HF D0 D1 (length nX) ltac:(lia)) qh (strip qh) mask true nX l1 (fun i t b _ _ => strip_rd FLUX HF qh _ b) El) as [l2 [El2 R2]].
  destruct (fold_sim num vec Rn l1 l2 R2 u u2 w U Ew) as [w2 [Ew2 U2]]. exists w2. split; [exact Ewh|]. split; [exact Eqh|]. split; [|exact U2].
  rewrite (step_is o ph NODES WGHTS ENDVALS DERVALS FLUX dt dX true true nX Hn). unfold fv_launcher. rewrite El2. exact Ew2.
Qed.

(** the other way round, when every block of a cell in the mask is finite *)
Lemma fv_is_ader u2 ub mask nX w2 wh qh q u : (length nX = 1 \/ length nX = 2) ->
  weno (balloc (extended_dimensions nX 1 * N o ^ length nX)) ub nX = Ok wh ->
  predictor (N o) (option nodal) Phi (length nX) (N o ^ length nX) (balloc (extended_dimensions nX 1 * N o)) wh mask = Ok qh ->
  (forall i t, t < N o -> i * N o + t < blen qh -> rd mask i = Ok true -> bdat qh (i * N o + t) = Some (Some (q (i * N o + t)))) -> step u2 (strip qh) mask nX = Ok w2 ->
  Ru _ _ (fun (x : vec) (y : num) => y = Some x) u2 u -> exists w, ader u ub mask nX = Ok w /\ Ru _ _ (fun (x : vec) (y : num) => y = Some x) w2 w.
Proof using HF.
  intros Hn Ewh Eqh Hq E U. rewrite (step_is o ph NODES WGHTS ENDVALS DERVALS FLUX dt dX true true nX Hn) in E. unfold fv_launcher in E. apply bind_ok in E. destruct E as [l2 [El Ew]].
  destruct (fv_sim vec nodal num (option nodal) (N o) (cv (length nX)) (fv (length nX)) (cnum (length nX) true true) (fnum (length nX) true)
     (fun (x : vec) (y : num) => y = Some x) (fun q b => b = Some q)) with (r1 := strip qh) (r2 := qh) (mask := mask) (TIME := true) (nX := nX) (l1 := l2) as [l1 [El1 R1]]; [| | |exact El|].
  - intros t b1 b2 l -> E. cbn [center_num]. unfold cvec in E. rewrite E. cbn [bind]. eexists. split; [reflexivity|].
    clear. induction l as [|e l IH]; cbn [map]; constructor; [|exact IH]. intros x y ->. reflexivity.
  - intros d t a1 b1 a2 b2 e g Hd -> -> E. cbn [face_num]. unfold fvec in E. rewrite E. cbn [bind]. do 2 eexists. split; [reflexivity|]. split; intros x y ->; reflexivity.
  - intros i t b Ht Hm E. cbn [nt_of] in *. unfold rd, strip in E |- *. cbn [blen bdat] in E. destruct (Nat.ltb_spec (i * N o + t) (blen qh)) as [L|L]; [|discriminate]. rewrite (Hq i t Ht L Hm) in *. cbn [unwrap] in E. injection E as <-. eauto.
  - destruct (fold_sim vec num _ l2 l1 R1 u2 u w2 U Ew) as [w [Ew2 U2]]. exists w. split; [|exact U2].
    unfold ader_with, ader_stepper, ader_updates. rewrite Ewh. cbn [bind]. rewrite Eqh. cbn [bind]. rewrite El1. cbn [bind]. exact Ew2.
Qed.

(** ** cells with the same reconstruction get the same blocks *)
Lemma gather_same (b : buf num) : forall n i j, (forall s, s < n -> rd b (i + s) = rd b (j + s)) -> gather (rd b) n i = gather (rd b) n j.
Proof using HF.
  induction n as [|n IH]; intros i j H; cbn [gather]; [reflexivity|]. pose proof (H 0 ltac:(lia)) as H0. rewrite !Nat.add_0_r in H0. rewrite H0.
  destruct (rd b j); cbn [bind]; try reflexivity. rewrite (IH (S i) (S j)); [reflexivity|]. intros s Hs. specialize (H (S s) ltac:(lia)). now rewrite !Nat.add_succ_r in H.
Qed.
Lemma same_blocks ndim RR n wh mask qh i j : 1 <= N o -> predictor (N o) (option nodal) Phi ndim RR (balloc (n * N o)) wh mask = Ok qh -> blen mask = n ->
  i < n -> j < n -> rd mask i = rd mask j -> (forall s, s < RR -> rd wh (i * RR + s) = rd wh (j * RR + s)) ->
  blen qh = n * N o /\ forall t, t < N o -> bdat qh (i * N o + t) = bdat qh (j * N o + t).
Proof using HF.
  intros N1 E L Hi Hj Hm Hw. pose proof (predictor_inv (N o) N1 (option nodal) Phi ndim RR _ wh mask qh E) as HP.
  assert (P : forall k, k < blen mask -> pcell (option nodal) Phi ndim RR wh mask k = Ok (match pcell (option nodal) Phi ndim RR wh mask k with Ok f => f | _ => None end)).
  { intros k Hk. destruct (HP k Hk) as [F EF]. now rewrite EF. }
  destruct (predictor_ok (N o) N1 (option nodal) Phi ndim RR (balloc (n * N o)) wh mask _ ltac:(cbn [balloc blen]; lia) P) as [qh' [E' [L' V]]].
  rewrite E in E'. injection E' as <-. split; [exact L'|]. intros t Ht. rewrite !V by lia.
  assert (Q : pcell (option nodal) Phi ndim RR wh mask i = pcell (option nodal) Phi ndim RR wh mask j).
  { unfold pcell. rewrite Hm. destruct (rd mask j) as [[]| | |]; cbn [bind]; try reflexivity. rewrite (gather_same wh RR (i * RR) (j * RR)); [reflexivity|exact Hw]. }
  rewrite Q. destruct (pcell _ _ _ _ _ _ j) as [[f|]| | |]; reflexivity.
Qed.
End B.
