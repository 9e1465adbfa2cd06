(** The whole split step as: relax, finite volume update of the half-stepped reconstruction, relax. *)
From Coq Require Import Reals Lia ZArith.
From Verif Require Import Base Options Sum EqModel EqProof FvModel FvBody FvProof FvProof2 WenoModel WenoProof DgModel StepperModel StepperProof GridModel
  AderModel AderProof AderProof2 HomogModel.
Import List ListNotations.
Open Scope nat_scope.

Lemma fold_res_split {A S} (f : A -> S -> res S) : forall l1 l2 s s2, fold_res f (l1 ++ l2) s = Ok s2 -> exists s1, fold_res f l1 s = Ok s1 /\ fold_res f l2 s1 = Ok s2.
Proof.
  induction l1 as [|a l1 IH]; intros l2 s s2 E; cbn [app fold_res] in *; [eauto|].
  apply bind_ok in E. destruct E as [s0 [E0 E]]. destruct (IH _ _ _ E) as [s1 [E1 E2]]. exists s1. rewrite E0. cbn [bind]. auto.
Qed.
Lemma fold_res_join {A S} (f : A -> S -> res S) : forall l1 l2 s s1 s2, fold_res f l1 s = Ok s1 -> fold_res f l2 s1 = Ok s2 -> fold_res f (l1 ++ l2) s = Ok s2.
Proof.
  induction l1 as [|a l1 IH]; intros l2 s s1 s2 E1 E2; cbn [app fold_res] in *; [now injection E1 as <-|].
  apply bind_ok in E1. destruct E1 as [s0 [E0 E]]. rewrite E0. cbn [bind]. eapply IH; eassumption.
Qed.

(** a pass over all cells *)
Section Relax.
Variable T : Type.
Definition relax (e : T -> T) (n : nat) : list (update T) := map (fun c => (c, e)) (seq 0 n).
Lemma relax_from (e : T -> T) : forall m k u x, k + m <= blen u -> (forall a, k <= a < k + m -> bdat u a = Some (x a)) ->
  exists u', fold_res do_update (map (fun c => (c, e)) (seq k m)) u = Ok u' /\ blen u' = blen u /\
    (forall a, k <= a < k + m -> bdat u' a = Some (e (x a))) /\ (forall a, ~ (k <= a < k + m) -> bdat u' a = bdat u a).
Proof.
  induction m as [|m IH]; intros k u x L H; cbn [seq map fold_res].
  - exists u. split; [reflexivity|]. split; [reflexivity|]. split; [lia|auto].
  - unfold do_update at 1. cbn [fst snd]. rewrite (rd_ok u k (x k)) by (try apply H; lia). cbn [bind]. rewrite wr_ok by lia. cbn [bind].
    match goal with |- context [fold_res do_update _ ?U] => set (u1 := U) end.
    destruct (IH (S k) u1 x) as [u' [E [L' [V K]]]].
    + unfold u1. cbn [blen]. lia.
    + intros a Ha. unfold u1. cbn [bdat]. unfold upd. destruct (Nat.eqb_spec a k); [lia|]. apply H. lia.
    + exists u'. split; [exact E|]. split; [exact L'|]. split.
      * intros a Ha. destruct (Nat.eq_dec a k) as [->|Ne]; [|apply V; lia]. rewrite K by lia. unfold u1. cbn [bdat]. unfold upd. rewrite Nat.eqb_refl. reflexivity.
      * intros a Ha. rewrite K by lia. unfold u1. cbn [bdat]. unfold upd. destruct (Nat.eqb_spec a k); [lia|reflexivity].
Qed.
Lemma relax_ok (e : T -> T) n u x : blen u = n -> (forall a, a < n -> bdat u a = Some (x a)) ->
  exists u', fold_res do_update (relax e n) u = Ok u' /\ blen u' = n /\ forall a, a < n -> bdat u' a = Some (e (x a)).
Proof.
  intros L H. destruct (relax_from e n 0 u x ltac:(lia) ltac:(intros; apply H; lia)) as [u' [E [L' [V _]]]]. exists u'. split; [exact E|]. split; [lia|]. intros a Ha. apply V. lia.
Qed.
End Relax.

Section S.
Variable o : options.
Variable ph : phys.
Variables NODES WGHTS : nat -> R.
Variables ENDVALS DERVALS : nat -> nat -> R.
Variables (FLUX : nat) (dt : R) (dX : nat -> R).
Hypothesis HV : VISCOUS o = true.
Hypothesis HF : FLUX < 3.
Hypothesis D0 : dX 0 <> 0%R.
Hypothesis D1 : dX 1 <> 0%R.
Variable valid : nodal -> bool.
Variables (SIG : nat -> nat -> R) (LAMS LAMC EPS : R) (inv : stencil -> (nat -> R) -> nat -> R).
Variable prim : option ((num -> num) * (num -> num)).
Variable ode : num -> num.
Variable HALF : bool.
Notation cnum := (center_num o ph WGHTS DERVALS dt dX).
Notation fnum := (face_num o ph NODES WGHTS ENDVALS FLUX dt dX).
Notation step := (fv_step o ph NODES WGHTS ENDVALS DERVALS false false FLUX dt dX).
Notation cv := (cvec o ph WGHTS DERVALS dt dX false false).
Notation fv := (fvec o ph NODES WGHTS ENDVALS FLUX dt dX false).
Notation split := (split_step o ph DERVALS dt dX valid NODES WGHTS ENDVALS FLUX SIG LAMS LAMC EPS inv prim ode HALF).
Notation weno := (weno_launcher (N o) SIG LAMS LAMC EPS inv prim (NO_CORNERS o)).
Notation midst := (midstepper (option nodal) view (mid o ph DERVALS dt dX valid) HALF).
(** the relaxation of a finite cell; anything where the code's result is NaN *)
Variable dflt : vec -> vec.
Definition ode2 (v : vec) : vec := match ode (Some v) with Some v' => v' | None => dflt v end.
Lemma ode_sim : ode None = None -> Re num vec Rn ode ode2.
Proof using. intros H [x|] y E; cbn in E; [subst y; unfold ode2, Rn; destruct (ode (Some x)); reflexivity|rewrite H; exact I]. Qed.
Lemma relax_sim n : ode None = None -> Rl num vec Rn (relax num ode n) (relax vec ode2 n).
Proof using. intros H. unfold relax. induction (seq 0 n) as [|c l IH]; cbn [map]; constructor; [|exact IH]. split; [reflexivity|apply ode_sim, H]. Qed.

Lemma split_is_fv u ub mask nX w u2 : (length nX = 1 \/ length nX = 2) -> ode None = None -> split u ub mask nX = Ok w -> Ru _ _ Rn u u2 ->
  exists wh rec u3 w3 w2, weno (balloc (extended_dimensions nX 1 * N o ^ length nX)) (bmap ode ub) nX = Ok wh /\
    midst (length nX) (N o ^ length nX) (balloc (extended_dimensions nX 1)) wh mask = Ok rec /\
    fold_res do_update (relax vec ode2 (blen u)) u2 = Ok u3 /\ step u3 (strip rec) mask nX = Ok w3 /\
    fold_res do_update (relax vec ode2 (blen u)) w3 = Ok w2 /\ Ru _ _ Rn w w2.
Proof using HV HF D0 D1.
  intros Hn HO E U. unfold split_step, split_stepper in E. apply bind_ok in E. destruct E as [l1 [El Ew]]. unfold split_updates in El.
  apply bind_ok in El. destruct El as [wh [Ewh El]]. apply bind_ok in El. destruct El as [rec [Er El]]. apply bind_ok in El. destruct El as [l0 [El0 El]]. injection El as <-.
  exists wh, rec.
  destruct (fv_sim num (option nodal) vec nodal (N o) _ _ (cv (length nX)) (fv (length nX)) Rn (fun b q => q = unwrap b)
     (center_sim o ph WGHTS DERVALS FLUX dt dX false false HV HF (length nX) ltac:(lia)) (face_sim o ph NODES WGHTS ENDVALS FLUX dt dX false HV HF D0 D1 (length nX) ltac:(lia))
     rec (strip rec) mask false nX l0 (fun i t b _ _ => strip_rd FLUX HF rec _ b) El0) as [l2 [El2 R2]].
  apply fold_res_split in Ew. destruct Ew as [u1 [E1 Ew]]. apply fold_res_split in Ew. destruct Ew as [w1 [E2 E3]].
  destruct (fold_sim num vec Rn _ _ (relax_sim (blen u) HO) u u2 u1 U E1) as [u3 [F1 U1]].
  destruct (fold_sim num vec Rn l0 l2 R2 u1 u3 w1 U1 E2) as [w3 [F2 U2]].
  destruct (fold_sim num vec Rn _ _ (relax_sim (blen u) HO) w1 w3 w U2 E3) as [w2 [F3 U3]].
  exists u3, w3, w2. split; [exact Ewh|]. split; [exact Er|]. split; [exact F1|]. split; [|split; [exact F3|exact U3]].
  rewrite (step_is o ph NODES WGHTS ENDVALS DERVALS FLUX dt dX false false nX Hn). unfold fv_launcher. rewrite El2. exact F2.
Qed.

(** the other way round, when nothing is NaN in between *)
Lemma fv_is_split u3 u4 ub mask nX w3 wh rec q u : (length nX = 1 \/ length nX = 2) ->
  weno (balloc (extended_dimensions nX 1 * N o ^ length nX)) (bmap ode ub) nX = Ok wh ->
  midst (length nX) (N o ^ length nX) (balloc (extended_dimensions nX 1)) wh mask = Ok rec ->
  (forall a, a < blen rec -> bdat rec a = Some (Some (q a))) ->
  fold_res do_update (relax num ode (blen u)) u = Ok u4 -> Ru _ _ (fun (x : vec) (y : num) => y = Some x) u3 u4 -> step u3 (strip rec) mask nX = Ok w3 ->
  exists w5, Ru _ _ (fun (x : vec) (y : num) => y = Some x) w3 w5 /\ forall w, fold_res do_update (relax num ode (blen u)) w5 = Ok w -> split u ub mask nX = Ok w.
Proof using HF.
  intros Hn Ewh Er Hq E1 U1 E. rewrite (step_is o ph NODES WGHTS ENDVALS DERVALS FLUX dt dX false false nX Hn) in E. unfold fv_launcher in E. apply bind_ok in E. destruct E as [l2 [El Ew]].
  destruct (fv_sim vec nodal num (option nodal) (N o) (cv (length nX)) (fv (length nX)) (cnum (length nX) false false) (fnum (length nX) false)
     (fun (x : vec) (y : num) => y = Some x) (fun q b => b = Some q)) with (r1 := strip rec) (r2 := rec) (mask := mask) (TIME := false) (nX := nX) (l1 := l2) as [l1 [El1 R1]]; [| | |exact El|].
  - intros t b1 b2 l -> E. cbn [center_num]. unfold cvec in E. rewrite E. cbn [bind]. eexists. split; [reflexivity|].
    clear. induction l as [|e l IH]; cbn [map]; constructor; [|exact IH]. intros x y ->. reflexivity.
  - intros d t a1 b1 a2 b2 e g Hd -> -> E. cbn [face_num]. unfold fvec in E. rewrite E. cbn [bind]. do 2 eexists. split; [reflexivity|]. split; intros x y ->; reflexivity.
  - intros i t b _ _ E. set (a := i * nt_of (N o) false + t) in *. unfold rd, strip in E |- *. cbn [blen bdat] in E. destruct (Nat.ltb_spec a (blen rec)) as [L|L]; [|discriminate]. rewrite (Hq a L) in *. cbn [unwrap] in E. injection E as <-. eauto.
  - destruct (fold_sim vec num _ l2 l1 R1 u3 u4 w3 U1 Ew) as [u5 [F2 U2]]. exists u5. split; [exact U2|]. intros w F3.
    unfold split_step, split_stepper, split_updates. rewrite Ewh. cbn [bind]. rewrite Er. cbn [bind]. rewrite El1. cbn [bind].
    eapply fold_res_join; [exact E1|]. eapply fold_res_join; [exact F2|exact F3].
Qed.

(** cells with the same reconstruction get the same blocks *)
Lemma same_mid ndim RR n wh mask rec i j : 1 <= N o -> midst ndim RR (balloc n) wh mask = Ok rec -> blen mask = n ->
  i < n -> j < n -> rd mask i = rd mask j -> (forall s, s < RR -> rd wh (i * RR + s) = rd wh (j * RR + s)) ->
  blen rec = n /\ bdat rec i = bdat rec j.
Proof using HF.
  intros N1 E L Hi Hj Hm Hw. set (mc := mcell (option nodal) view (mid o ph DERVALS dt dX valid) HALF ndim RR wh mask).
  pose proof (midstepper_inv (N o) N1 (option nodal) view (mid o ph DERVALS dt dX valid) HALF ndim RR _ wh mask rec E) as HP. fold mc in HP.
  destruct (midstepper_ok (N o) N1 (option nodal) view (mid o ph DERVALS dt dX valid) HALF ndim RR (balloc n) wh mask (fun k => match mc k with Ok b => b | _ => None end)) as [rec' [E' [L' V]]].
  - cbn [balloc blen]. lia.
  - intros k Hk. fold mc. destruct (HP k Hk) as [B ->]. reflexivity.
  - rewrite E in E'. injection E' as <-. split; [exact L'|]. rewrite !V by lia. do 2 f_equal.
    unfold mc, mcell. rewrite Hm. rewrite (gather_same FLUX HF wh RR (i * RR) (j * RR)); [reflexivity|exact Hw].
Qed.
End S.
