(** One material and no level set: one turn of the loop, and properties that every turn keeps. *)
From Coq Require Import Reals Lia Lra ZArith.
From Verif Require Import Base Options Mat3 PhysModel UtilsModel UtilsProof UtilsProps IterModel IterSpec IterProof IterProof2 IterProps.
Import List ListNotations.
Open Scope R_scope.

Section One.
Variable o : options.
Variable svd : mat3 -> vec3 * mat3.
Variable speed : vec -> nat -> matpar -> option R.
Variable fill : list grid -> list (list bool) -> grid -> R -> res (grid * list grid * list (list bool)).
Variable advance : matpar -> grid -> list bool -> R -> res grid.
Variable nan : grid -> bool.
Variable ROT : bool.
Variables (dX : list R) (CFL tf tol : R) (m : matpar).
Notation turn := (turn o svd speed fill advance nan ROT dX CFL tf tol [m]).
Notation run := (run o svd speed fill advance nan ROT dX CFL tf tol [m]).
Hypothesis HL : LSET o = 0%nat.
Hypothesis HM : mp_void m = false.

(** iterator.cpp 141-150: what is done to the state after the step, up to the test for contortion, and after it; c is the number of turns *)
Definition corrected (c : nat) (u : grid) : res grid :=
  u <- renorm_distortion o [m] (limit_concentration o u) ;;
  if (Nat.eqb (c mod 10) 0 && ROT)%bool then rotate_distortion o svd [m] u else Ok u.
Definition post (c : nat) (u : grid) : res grid :=
  u <- corrected c u ;;
  b <- contorted o svd tol u ;;
  (if (b : bool) then reset_distortion o [m] u else Ok u).
(** a state that a run from s tests for contortion *)
Inductive tested (s : state) (g : grid) : Prop :=
| tested_now k dt u1 : s_t s < tf -> s_masks s = [k] -> timestep speed [m] [s_u s] [k] dX CFL (s_t s) tf (s_count s) 1 = Ok (Some dt) -> advance m (s_u s) k dt = Ok u1 ->
    corrected (S (s_count s)) u1 = Ok g -> tested s g
| tested_later s' : s_t s < tf -> turn s = Ok (inl s') -> tested s' g -> tested s g.

(** a state that a run from s hands to the step of the material, with the length of the step *)
Inductive handed (s : state) (g : grid) (dt : R) : Prop :=
| handed_now k : s_t s < tf -> s_masks s = [k] -> timestep speed [m] [s_u s] [k] dX CFL (s_t s) tf (s_count s) 1 = Ok (Some dt) -> g = s_u s -> handed s g dt
| handed_later s' : s_t s < tf -> turn s = Ok (inl s') -> handed s' g dt -> handed s g dt.

Lemma turn_single s g0 k : s_grids s = [g0] -> s_masks s = [k] -> turn s =
  (d <- timestep speed [m] [s_u s] [k] dX CFL (s_t s) tf (s_count s) 1 ;;
   match d with
   | None => Throw "non-finite time step"
   | Some dt =>
     u1 <- advance m (s_u s) k dt ;;
     u <- post (S (s_count s)) u1 ;;
     ' (ret, push) <-
      (if Rle_dec (INR (s_push s + 1) / 100 * tf) (s_t s + dt) then ret <- wr (s_ret s) (s_push s) (u, s_t s + dt) ;; Ok (ret, S (s_push s))
       else Ok (s_ret s, s_push s)) ;;
     if nan u then
       ret <- wr ret push (s_u s, s_t s) ;;
       ret <- wr ret (push + 1) (u, s_t s + dt) ;;
       Ok (inr (mkstate u [u1] [k] (s_t s + dt) dt (S (s_count s)) push ret))
     else Ok (inl (mkstate u [u1] [k] (s_t s + dt) dt (S (s_count s)) push ret))
   end).
Proof.
  intros EG EK. unfold IterModel.turn. cbv zeta. rewrite HL, EG, EK. cbn [Nat.ltb Nat.leb bind List.length].
  match goal with |- bind ?t _ = _ => destruct t as [[dt|]| | |] end; cbn [bind]; try reflexivity.
  unfold advance_all. cbn [List.length for_loop get nth_error bind]. unfold get at 1. cbn [nth_error bind]. rewrite HM. cbn [get nth_error bind].
  destruct (advance m (s_u s) k dt) as [u1| | |]; cbn [bind]; try reflexivity. cbn [firstn skipn app get nth_error bind].
  unfold post, corrected. destruct (renorm_distortion o [m] (limit_concentration o u1)) as [u2| | |]; cbn [bind]; try reflexivity.
  match goal with |- bind ?t _ = _ => destruct t as [u3| | |] end; cbn [bind]; try reflexivity.
  destruct (contorted o svd tol u3) as [b| | |]; cbn [bind]; try reflexivity.
Qed.

(** a property of the time and the state that every turn keeps holds of the final state and of all that was output *)
Definition slot_ok (P : R -> grid -> Prop) (x : grid * R) : Prop := x = ([], 0) \/ P (snd x) (fst x).
Lemma run_keeps (P : R -> grid -> Prop) (A : grid -> Prop) n :
  (forall t u c dt u1 u2 u', P t u -> t < tf -> List.length u = n -> timestep speed [m] [u] [repeat true n] dX CFL t tf c 1 = Ok (Some dt) -> advance m u (repeat true n) dt = Ok u1 ->
     corrected (S c) u1 = Ok u2 -> A u2 -> post (S c) u1 = Ok u' -> P (t + dt) u' /\ List.length u' = n) ->
  forall fuel s s' b, List.length (s_u s) = n -> (exists g0, s_grids s = [g0]) -> s_masks s = [repeat true n] -> P (s_t s) (s_u s) ->
    (forall i x, bdat (s_ret s) i = Some x -> slot_ok P x) -> (forall g, tested s g -> A g) -> run fuel s = Ok (s', b) ->
    P (s_t s') (s_u s') /\ (forall i x, bdat (s_ret s') i = Some x -> slot_ok P x).
Proof.
  intros HP. induction fuel as [|fuel IH]; intros s s' b Lu [g0 EG] EK P0 S0 HA E; cbn [IterModel.run] in E; destruct (Rlt_dec (s_t s) tf) as [L|L]; try discriminate.
  2: apply bind_ok in E; destruct E as (r & ER & E).
  1,3: apply bind_ok in E; destruct E as (ret & W & E); injection E as <- <-; cbn [s_u s_t s_ret]; (split; [exact P0|]); intros i x Hx; apply wr_inv in W;
    destruct W as [_ ->]; cbn [bdat] in Hx; unfold upd in Hx; (destruct (Nat.eqb i 99); [injection Hx as <-; right; exact P0|apply (S0 i), Hx]).
  pose proof ER as ER0. rewrite (turn_single s g0 _ EG EK) in ER. apply bind_ok in ER. destruct ER as ([dt|] & ED & ER); [|discriminate].
  apply bind_ok in ER. destruct ER as (u1 & EA & ER). apply bind_ok in ER. destruct ER as (u' & EP & ER).
  pose proof EP as EP0. apply bind_ok in EP0. destruct EP0 as (u2 & EC & _).
  destruct (HP _ _ _ _ _ _ _ P0 L Lu ED EA EC (HA _ (tested_now _ _ _ _ _ L EK ED EA EC)) EP) as [P1 L1].
  apply bind_ok in ER. destruct ER as ([ret push] & EW & ER).
  assert (S1 : forall i x, bdat ret i = Some x -> slot_ok P x).
  { destruct (Rle_dec _ _).
    - apply bind_ok in EW. destruct EW as (r1 & W & EW). injection EW as <- <-. apply wr_inv in W. destruct W as [_ ->]. intros i x Hx. cbn [bdat] in Hx. unfold upd in Hx.
      destruct (Nat.eqb i (s_push s)); [injection Hx as <-; right; exact P1|apply (S0 i), Hx].
    - injection EW as <- <-. exact S0. }
  destruct (nan u').
  - apply bind_ok in ER. destruct ER as (r1 & W1 & ER). apply bind_ok in ER. destruct ER as (r2 & W2 & ER). injection ER as <-. injection E as <- <-.
    cbn [s_u s_t s_ret]. split; [exact P1|]. apply wr_inv in W1. destruct W1 as [_ ->]. apply wr_inv in W2. destruct W2 as [_ ->]. intros i x Hx. cbn [bdat] in Hx. unfold upd in Hx.
    destruct (Nat.eqb i (push + 1)); [injection Hx as <-; right; exact P1|]. destruct (Nat.eqb i push); [injection Hx as <-; right; exact P0|apply (S1 i), Hx].
  - injection ER as <-. refine (IH _ _ _ _ _ _ _ _ _ E); cbn [s_u s_grids s_masks s_t s_ret]; [exact L1|exists u1; reflexivity|reflexivity|exact P1|exact S1|].
    intros g Hg. apply HA. apply (tested_later _ _ _ L ER0 Hg).
Qed.

(** ** what the corrections after the step do to the components *)
Definition total (u : grid) (k : nat) : R := fold_right (fun q a => q k + a) 0 u.
Lemma each_cell_rel (Q : vec -> vec -> Prop) f : (forall i q q', f i q = Ok q' -> Q q q') -> forall u i u', each_cell f i u = Ok u' -> Forall2 Q u u'.
Proof.
  intros H. induction u as [|q u IH]; intros i u' E; cbn [each_cell] in E; [injection E as <-; constructor|].
  apply bind_ok in E. destruct E as (q' & Eq & E). apply bind_ok in E. destruct E as (u2 & E2 & E). injection E as <-. constructor; [apply (H i), Eq|apply (IH (S i)), E2].
Qed.
Lemma Forall2_comp {A} (Q1 Q2 Q3 : A -> A -> Prop) : (forall a b c, Q1 a b -> Q2 b c -> Q3 a c) -> forall l1 l2 l3, Forall2 Q1 l1 l2 -> Forall2 Q2 l2 l3 -> Forall2 Q3 l1 l3.
Proof.
  intros H. induction l1 as [|a l1 IH]; intros l2 l3 F1 F2; inversion F1; subst; inversion F2; subst; constructor; [eapply H; eassumption|eapply IH; eassumption].
Qed.
Lemma Forall2_len {A B} (Q : A -> B -> Prop) : forall l1 l2, Forall2 Q l1 l2 -> List.length l1 = List.length l2.
Proof. induction 1; cbn; congruence. Qed.
(** corrections change the distortion and the concentration only, and a reset takes the elastic energy away *)
Definition kept (q q' : vec) : Prop := forall k, (k < 5)%nat -> q' k = q k.
Definition drained (q q' : vec) : Prop := (forall k, (k < 5)%nat -> k <> 1%nat -> q' k = q k) /\ q' 1%nat = q 1%nat - q 0%nat * E_2A (mp_par m) (q 0%nat) (get_A q).
Lemma setseg_low (q : vec) n f k : (k < 5)%nat -> setseg q 5 n f k = q k.
Proof. intros H. unfold setseg. destruct (Nat.leb_spec 5 k); [lia|]. reflexivity. Qed.
Lemma the_material q : get [m] (get_material_index o q) = Ok m.
Proof using HL. replace (get_material_index o q) with 0%nat; [reflexivity|]. pose proof (material_bound o q). lia. Qed.
Lemma renorm_kept u u' : renorm_distortion o [m] u = Ok u' -> Forall2 kept u u'.
Proof using HL HM.
  apply each_cell_rel. intros i q q' E. unfold renorm_cell in E. rewrite the_material in E. cbn [bind] in E. rewrite HM in E.
  destruct (Rlt_dec _ _); [|injection E as <-; intros k _; reflexivity]. unfold has_A in E. destruct (Nat.ltb _ _); [discriminate|]. injection E as <-. intros k Hk. apply setseg_low, Hk.
Qed.
Lemma rotate_kept u u' : rotate_distortion o svd [m] u = Ok u' -> Forall2 kept u u'.
Proof using HL HM.
  apply each_cell_rel. intros i q q' E. unfold rotate_cell in E. rewrite the_material in E. cbn [bind] in E. rewrite HM in E.
  unfold has_A in E. destruct (Nat.ltb _ _); [discriminate|]. destruct (svd (get_A q)) as [sv Vm]. injection E as <-. intros k Hk. unfold setseg.
  repeat match goal with |- context [Nat.leb ?a k] => destruct (Nat.leb_spec a k); [lia|]; cbn [andb] end. reflexivity.
Qed.
Lemma reset_drained u u' : reset_distortion o [m] u = Ok u' -> Forall2 drained u u'.
Proof using HL HM.
  apply each_cell_rel. intros i q q' E. unfold reset_cell in E. rewrite the_material in E. cbn [bind] in E. rewrite HM in E.
  unfold has_A in E. destruct (Nat.ltb _ _); [discriminate|]. injection E as <-. split; [intros k Hk H1|]; unfold setseg, set1.
  - repeat match goal with |- context [Nat.eqb k ?a] => destruct (Nat.eqb_spec k a); [lia|] end. destruct (Nat.leb_spec 5 k); [lia|]. reflexivity.
  - reflexivity.
Qed.
Lemma limit_kept u : VISCOUS o = true -> Forall2 kept u (limit_concentration o u).
Proof using.
  clear HL HM.
  intros HV. unfold limit_concentration. destruct (MULTI o); [|induction u; constructor; [intros k _; reflexivity|assumption]].
  induction u as [|q u IH]; cbn [map]; constructor; [|exact IH]. intros k Hk. unfold set1.
  assert (X : (5 <= mV o)%nat) by (unfold mV; lia). destruct (Nat.eqb_spec k (mV o)); [lia|reflexivity].
Qed.
Lemma corrected_kept c u1 u2 : VISCOUS o = true -> corrected c u1 = Ok u2 -> Forall2 kept u1 u2.
Proof using HL HM.
  intros HV E. unfold corrected in E. apply bind_ok in E. destruct E as (u & E1 & E2). pose proof (limit_kept u1 HV) as K1. apply renorm_kept in E1.
  assert (K : forall a b c, kept a b -> kept b c -> kept a c) by (intros a b d H1 H2 k Hk; rewrite H2, H1 by exact Hk; reflexivity).
  pose proof (Forall2_comp _ _ _ K _ _ _ K1 E1) as K2. destruct (_ && _)%bool; [|injection E2 as <-; exact K2]. apply rotate_kept in E2. exact (Forall2_comp _ _ _ K _ _ _ K2 E2).
Qed.
Lemma total_kept u u' k : (k < 5)%nat -> Forall2 kept u u' -> total u' k = total u k.
Proof using. intros Hk. induction 1 as [|q q' u u' Q F IH]; cbn; [reflexivity|]. rewrite (Q k Hk). unfold total in IH. rewrite IH. reflexivity. Qed.
Lemma total_drained u u' k : (k < 5)%nat -> k <> 1%nat -> Forall2 drained u u' -> total u' k = total u k.
Proof using. intros Hk H1. induction 1 as [|q q' u u' [Q _] F IH]; cbn; [reflexivity|]. rewrite (Q k Hk H1). unfold total in IH. rewrite IH. reflexivity. Qed.
(** the elastic energy of a grid: r * E_2A summed over its cells *)
Definition elastic (u : grid) : R := fold_right (fun q a => q 0%nat * E_2A (mp_par m) (q 0%nat) (get_A q) + a) 0 u.
Lemma energy_drained u u' : Forall2 drained u u' -> total u' 1 = total u 1 - elastic u.
Proof using. induction 1 as [|q q' u u' [_ Q] F IH]; cbn; [ring|]. rewrite Q. unfold total, elastic in IH. rewrite IH. ring. Qed.
(** the totals through the corrections of a turn *)
Lemma post_totals c u1 u' : VISCOUS o = true -> post c u1 = Ok u' -> List.length u' = List.length u1 /\
  (forall k, (k < 5)%nat -> k <> 1%nat -> total u' k = total u1 k) /\
  exists u2, corrected c u1 = Ok u2 /\ ((contorted o svd tol u2 = Ok false /\ total u' 1 = total u1 1) \/ (contorted o svd tol u2 = Ok true /\ total u' 1 = total u1 1 - elastic u2)).
Proof using HL HM.
  intros HV E. unfold post in E. apply bind_ok in E. destruct E as (u2 & EC & E). pose proof (corrected_kept c u1 u2 HV EC) as K. apply bind_ok in E. destruct E as ([|] & EB & E).
  - apply reset_drained in E. split; [rewrite <- (Forall2_len _ _ _ E), <- (Forall2_len _ _ _ K); reflexivity|]. split.
    + intros k Hk H1. rewrite (total_drained _ _ k Hk H1 E). apply total_kept; assumption.
    + exists u2. split; [exact EC|]. right. split; [exact EB|]. rewrite (energy_drained _ _ E), (total_kept _ _ 1%nat ltac:(lia) K). reflexivity.
  - injection E as <-. split; [rewrite <- (Forall2_len _ _ _ K); reflexivity|]. split.
    + intros k Hk H1. apply total_kept; assumption.
    + exists u2. split; [exact EC|]. left. split; [exact EB|]. apply total_kept; [lia|assumption].
Qed.

(** ** no undefined behaviour *)
Lemma limit_length u : List.length (limit_concentration o u) = List.length u.
Proof using. unfold limit_concentration. destruct (MULTI o); [apply map_length|reflexivity]. Qed.
Lemma post_returns c u : VISCOUS o = true -> exists u', post c u = Ok u' /\ List.length u' = List.length u.
Proof using HL.
  intros HV. assert (MO : materials_ok o [m]) by (split; [exact HV|cbn; lia]).
  unfold post, corrected. destruct (renorm_restores_mass o [m] (limit_concentration o u) MO) as (u1 & -> & L1 & _). cbn [bind]. rewrite limit_length in L1.
  assert (X : exists u2, (if (Nat.eqb (c mod 10) 0 && ROT)%bool then rotate_distortion o svd [m] u1 else Ok u1) = Ok u2 /\ List.length u2 = List.length u1).
  { destruct (_ && _)%bool; [|eauto]. destruct (rotate_preserves_stress o svd [m] u1 MO) as (u2 & E & L & _). eauto. }
  destruct X as (u2 & -> & L2). cbn [bind]. unfold contorted. pose proof (V14 o HV) as V. destruct (Nat.ltb_spec (Options.V o) 14); [lia|]. cbn [bind].
  destruct (existsb _ u2); [|exists u2; split; [reflexivity|congruence]]. destruct (reset_preserves_pressure o [m] u2 MO) as (u3 & -> & L3 & _). exists u3. split; [reflexivity|congruence].
Qed.
Definition safe_outcome {A} (good : A -> Prop) (r : res A) : Prop := (exists x, r = Ok x /\ good x) \/ r = Throw "NaN" \/ r = NoFuel.
Lemma run_safe n : VISCOUS o = true -> 0 < CFL -> 0 < tf -> (forall g, nan g = false) ->
  (forall u dt, List.length u = n -> safe_outcome (fun g => List.length g = n) (advance m u (repeat true n) dt)) ->
  forall fuel s, inv tf s -> List.length (s_u s) = n -> (exists g0, s_grids s = [g0]) -> s_masks s = [repeat true n] -> safe_outcome (fun r => snd r = false) (run fuel s).
Proof using HL HM.
  intros HV HC HT HN HA. induction fuel as [|fuel IH]; intros s I Lu [g0 EG] EK; cbn [IterModel.run]; destruct (Rlt_dec (s_t s) tf) as [L|L].
  1: right; right; reflexivity.
  1,3: rewrite wr_ok by (rewrite (inv_len _ _ I); lia); cbn [bind]; left; eexists; split; reflexivity.
  pose proof (turn_single s g0 _ EG EK) as ET.
  assert (SH : shaped n [m] [s_u s] [repeat true n]) by (split; [reflexivity|]; split; [reflexivity|]; split; intros x [<-|[]]; [exact Lu|apply repeat_length]).
  destruct (timestep_respects_cfl speed n [m] [s_u s] [repeat true n] dX CFL (s_t s) tf (s_count s) SH ltac:(discriminate) HC ltac:(lra)) as (dt & ED & LE & _).
  cbn [List.length] in ED. rewrite ED in ET. cbn [bind] in ET.
  destruct (HA (s_u s) dt Lu) as [(u1 & EA & L1)|[EA|EA]]; rewrite EA in ET; cbn [bind] in ET; [|rewrite ET; right; left; reflexivity|rewrite ET; right; right; reflexivity].
  destruct (post_returns (S (s_count s)) u1 HV) as (u' & EP & LP). rewrite EP in ET. cbn [bind] in ET. rewrite HN in ET.
  assert (X : exists s', turn s = Ok (inl s') /\ s_u s' = u' /\ s_grids s' = [u1] /\ s_masks s' = [repeat true n]).
  { destruct (Rle_dec _ _) as [LS|LS] in ET.
    - rewrite wr_ok in ET by (rewrite (inv_len _ _ I); exact (snapshot_fits tf HT s dt I LE LS)). cbn [bind] in ET. eexists. split; [exact ET|]. repeat split.
    - cbn [bind] in ET. eexists. split; [exact ET|]. repeat split. }
  destruct X as (s' & ET' & EU & EG' & EK'). pose proof (turn_inv o svd speed fill advance nan ROT dX CFL tf tol [m] HC s _ L I ET') as TI. rewrite ET'. cbn [bind].
  apply IH; [exact TI|congruence|exists u1; exact EG'|exact EK'].
Qed.
End One.
