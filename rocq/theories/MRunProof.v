(** Several materials: one turn of the loop, and what every turn keeps. *)
From Coq Require Import Reals Lia Lra ZArith.
From Verif Require Import Base Options Mat3 PhysModel UtilsModel UtilsProof UtilsProps IterModel IterSpec IterProof IterProof2 IterProps RunProof2 FmmModel FillModel FmmSpec FillProps MRunModel.
Import List ListNotations.
Open Scope nat_scope.

Lemma nth_error_In' {A} (l : list A) x : In x l -> exists i, nth_error l i = Some x.
Proof. apply In_nth_error. Qed.

(** ** ghost filling of grids *)
Section Shape.
Variable o : options.
Variable star : vec -> vec -> matpar -> matpar -> R -> (nat -> R) -> res vec.
Variables (nX : list nat) (dX : list R) (MPs : list matpar).
Notation n := (cells nX).
Hypothesis D12 : length nX = 1 \/ length nX = 2.

Lemma take_vecs_ok (b : buf vec) : forall k a, (forall i, a <= i < a + k -> exists x, rd b i = Ok x) -> exists l, take_vecs b k a = Ok l /\ length l = k.
Proof.
  induction k as [|k IH]; intros a H; cbn [take_vecs]; [exists []; auto|]. destruct (H a ltac:(lia)) as [x ->]. cbn [bind].
  destruct (IH (S a)) as [l [-> L]]; [intros i Hi; apply H; lia|]. cbn [bind]. exists (x :: l). cbn. auto.
Qed.
Lemma map_res_ok {A B} (f : A -> res B) (Q : B -> Prop) l : (forall a, In a l -> exists b, f a = Ok b /\ Q b) -> exists l', map_res f l = Ok l' /\ length l' = length l /\ forall b, In b l' -> Q b.
Proof.
  induction l as [|a l IH]; intros H; cbn [map_res]; [exists []; repeat split; intros b []|]. destruct (H a (or_introl eq_refl)) as [b [-> Hb]]. cbn [bind].
  destruct IH as [l' [-> [L HQ]]]; [intros x Hx; apply H; right; exact Hx|]. cbn [bind]. exists (b :: l'). split; [reflexivity|]. split; [cbn; lia|].
  intros x [<-|Hx]; auto.
Qed.
(** filling, if it returns, returns grids and masks of the right size *)
Lemma run_fill_shape grids masks (u : grid) dt : shaped n MPs grids masks -> length u = n ->
  let raw := fill_ghost_cells o star (fun d => nth d dX 1%R) nX MPs dt dX n (fun i => nth i u (fun _ => 0%R)) (map cells_buf grids) (map (fun k i => nth i k false) masks) in
  (exists u' gs ms, run_fill o star nX dX MPs grids masks u dt = Ok (u', gs, ms) /\ length u' = n /\ shaped n MPs gs ms) \/
  ((forall x, raw <> Ok x) /\ match raw with Ok _ => False | UB w => run_fill o star nX dX MPs grids masks u dt = UB w
     | Throw w => run_fill o star nX dX MPs grids masks u dt = Throw w | NoFuel => run_fill o star nX dX MPs grids masks u dt = NoFuel end).
Proof using D12.
  intros [S1 [S2 [S3 S4]]] Lu raw. unfold run_fill. rewrite Lu. fold raw. destruct raw as [[[u' gs] ms]|w|w|] eqn:E; cbn [bind].
  2-4: right; split; [discriminate|reflexivity].
  left. unfold raw in E. destruct (ghost_filling _ _ _ _ _ _ _ _ _ _ _ _ _ D12 E) as [_ [L1 [L2 H]]]. rewrite map_length in L1, L2, H.
  destruct (map_res_ok buf_cells (fun g => length g = n) gs) as [gs' [-> [L3 H3]]].
  { intros b Hb. destruct (In_nth_error _ _ Hb) as [i Hi]. assert (Li : i < length grids) by (rewrite <- L1; apply nth_error_Some; congruence).
    destruct (H i Li) as [Mp [_ [HV HN]]]. destruct (mp_void Mp).
    - destruct (HV eq_refl) as [X _]. rewrite Hi in X. symmetry in X. rewrite nth_error_map in X. destruct (nth_error grids i) as [g|] eqn:Eg; [|discriminate]. injection X as <-.
      apply nth_error_In in Eg. specialize (S3 _ Eg). unfold buf_cells. cbn [blen cells_buf]. rewrite S3. destruct (take_vecs_ok (cells_buf g) n 0) as [l [El Ll]]; [|eauto].
      intros a Ha. destruct (nth_error g a) as [x|] eqn:Ex; [|apply nth_error_None in Ex; lia]. exists x. apply rd_ok; [cbn; lia|exact Ex].
    - destruct (HN eq_refl) as [g [G [mk [phi [X [[LG SG] _]]]]]]. rewrite Hi in X. injection X as <-. unfold buf_cells. rewrite LG.
      destruct (take_vecs_ok b n 0) as [l [El Ll]]; [|eauto]. intros a Ha. eexists. apply SG. lia. }
  cbn [bind]. eexists _, _, _. split; [reflexivity|]. split; [rewrite map_length; apply seq_length|]. split; [lia|]. split; [rewrite map_length; lia|]. split; [exact H3|].
  intros m Hm. apply in_map_iff in Hm. destruct Hm as [f [<- _]]. rewrite map_length. apply seq_length.
Qed.
End Shape.

(** ** the loop *)
Section Many.
Variable o : options.
Variable svd : mat3 -> vec3 * mat3.
Variable speed : vec -> nat -> matpar -> option R.
Variable fill : list grid -> list (list bool) -> grid -> R -> res (grid * list grid * list (list bool)).
Variable advance : matpar -> grid -> list bool -> R -> res grid.
Variable nan : grid -> bool.
Variable ROT : bool.
Variables (dX : list R) (CFL tf tol : R) (MPs : list matpar).
Notation turn := (turn o svd speed fill advance nan ROT dX CFL tf tol MPs).
Notation run := (run o svd speed fill advance nan ROT dX CFL tf tol MPs).
Hypothesis HL : 0 < LSET o.
Hypothesis HMP : LSET o < length MPs.

(** iterator.cpp 141-150 *)
Definition mpost (c : nat) (u : grid) : res grid :=
  u <- renorm_distortion o MPs (limit_concentration o u) ;;
  u <- (if (Nat.eqb (c mod 10) 0 && ROT)%bool then rotate_distortion o svd MPs u else Ok u) ;;
  b <- contorted o svd tol u ;;
  (if (b : bool) then reset_distortion o MPs u else Ok u).
Lemma mturn s : turn s =
  ('(u0, gs, ms) <- fill (s_grids s) (s_masks s) (s_u s) (s_dt s) ;;
   d <- timestep speed MPs gs ms dX CFL (s_t s) tf (s_count s) (length MPs) ;;
   match d with
   | None => Throw "non-finite time step"
   | Some dt =>
     gs <- advance_all advance MPs gs ms dt ;;
     u1 <- make_u o MPs gs ms u0 ;;
     u <- mpost (S (s_count s)) u1 ;;
     ' (ret, push) <-
      (if Rle_dec (INR (s_push s + 1) / 100 * tf) (s_t s + dt) then ret <- wr (s_ret s) (s_push s) (u, (s_t s + dt)%R) ;; Ok (ret, S (s_push s))
       else Ok (s_ret s, s_push s)) ;;
     if nan u then
       ret <- wr ret push (s_u s, s_t s) ;;
       ret <- wr ret (push + 1) (u, (s_t s + dt)%R) ;;
       Ok (inr (mkstate u gs ms (s_t s + dt) dt (S (s_count s)) push ret))
     else Ok (inl (mkstate u gs ms (s_t s + dt) dt (S (s_count s)) push ret))
   end).
Proof using HL.
  clear HMP. unfold IterModel.turn. cbv zeta. destruct (Nat.ltb_spec 0 (LSET o)) as [_|X]; [|lia].
  match goal with |- bind ?t _ = _ => destruct t as [[[u0 gs] ms]| | |] end; cbn [bind]; try reflexivity.
  match goal with |- bind ?t _ = _ => destruct t as [[dt|]| | |] end; cbn [bind]; try reflexivity.
  match goal with |- bind ?t _ = _ => destruct t as [gs'| | |] end; cbn [bind]; try reflexivity.
  match goal with |- bind ?t _ = _ => destruct t as [u1| | |] end; cbn [bind]; try reflexivity.
  unfold mpost. match goal with |- bind ?t _ = _ => destruct t as [u2| | |] end; cbn [bind]; try reflexivity.
  match goal with |- bind ?t _ = _ => destruct t as [u3| | |] end; cbn [bind]; try reflexivity.
  match goal with |- bind ?t _ = _ => destruct t as [b| | |] end; cbn [bind]; reflexivity.
Qed.
Lemma mpost_returns c u : VISCOUS o = true -> exists u', mpost c u = Ok u' /\ length u' = length u.
Proof using HMP.
  clear HL. intros HV. assert (MO : materials_ok o MPs) by (split; [exact HV|exact HMP]).
  unfold mpost. destruct (renorm_restores_mass o MPs (limit_concentration o u) MO) as (u1 & -> & L1 & _). cbn [bind]. rewrite limit_length in L1.
  assert (X : exists u2, (if (Nat.eqb (c mod 10) 0 && ROT)%bool then rotate_distortion o svd MPs u1 else Ok u1) = Ok u2 /\ length u2 = length u1).
  { destruct (_ && _)%bool; [|eauto]. destruct (rotate_preserves_stress o svd MPs u1 MO) as (u2 & E & L & _). eauto. }
  destruct X as (u2 & -> & L2). cbn [bind]. unfold contorted. pose proof (V14 o HV) as V. destruct (Nat.ltb_spec (Options.V o) 14); [lia|]. cbn [bind].
  destruct (existsb _ u2); [|exists u2; split; [reflexivity|congruence]]. destruct (reset_preserves_pressure o MPs u2 MO) as (u3 & -> & L3 & _). exists u3. split; [reflexivity|congruence].
Qed.
Lemma for_loop_safe {A} (P : A -> Prop) (f : nat -> A -> res A) : forall k lo s, P s -> (forall i s, lo <= i < lo + k -> P s -> safe_outcome P (f i s)) -> safe_outcome P (for_loop k lo f s).
Proof using.
  clear. induction k as [|k IH]; intros lo s H0 Hf; cbn [for_loop]; [left; eauto|]. destruct (Hf lo s ltac:(lia) H0) as [(x & E & Px)|[E|E]]; rewrite E; cbn [bind].
  - apply IH; [exact Px|]. intros i t Hi. apply Hf. lia.
  - right; left; reflexivity.
  - right; right; reflexivity.
Qed.
Lemma advance_all_safe n gs ms dt : shaped n MPs gs ms ->
  (forall m g k, length g = n -> length k = n -> safe_outcome (fun g' => length g' = n) (advance m g k dt)) ->
  safe_outcome (fun gs' => shaped n MPs gs' ms) (advance_all advance MPs gs ms dt).
Proof using.
  clear HL HMP. intros SH HA. unfold advance_all. apply for_loop_safe; [exact SH|]. intros i s Hi SS. pose proof SS as [S1 [S2 [S3 S4]]].
  destruct (get_ok MPs i ltac:(lia)) as [m [-> Em]]. cbn [bind]. destruct (mp_void m); [left; eauto|].
  destruct (get_ok s i ltac:(lia)) as [g [-> Eg]]. destruct (get_ok ms i ltac:(lia)) as [k [-> Ek]]. cbn [bind].
  destruct (HA m g k) as [(g' & -> & Lg)|[->| ->]]; [apply S3, (nth_error_In _ _ Eg)|apply S4, (nth_error_In _ _ Ek)|..]; cbn [bind]; [|right; left; reflexivity|right; right; reflexivity].
  left. eexists. split; [reflexivity|]. split; [|split; [exact S2|split; [|exact S4]]].
  - rewrite app_length. cbn [length]. rewrite firstn_length, skipn_length. lia.
  - intros x Hx. apply in_app_iff in Hx. destruct Hx as [Hx|[<-|Hx]]; [apply S3; rewrite <- (firstn_skipn i s); apply in_app_iff; left; exact Hx|exact Lg|].
    apply S3. rewrite <- (firstn_skipn (S i) s). apply in_app_iff. right. exact Hx.
Qed.

(** the states a run from s0 goes through at the start of a turn *)
Inductive reached (s0 : state) : state -> Prop :=
| reached_here : reached s0 s0
| reached_turn s s' : reached s0 s -> (s_t s < tf)%R -> turn s = Ok (inl s') -> reached s0 s'.
Lemma reached_first s0 s1 s : (s_t s0 < tf)%R -> turn s0 = Ok (inl s1) -> reached s1 s -> reached s0 s.
Proof using. intros L E R. induction R as [|s s' R IH Ls Es]; [apply (reached_turn _ s0); [constructor|exact L|exact E]|apply (reached_turn _ s); assumption]. Qed.
(** the same failure *)
Definition same_failure {A B} (x : res A) (y : res B) : Prop :=
  match x with Ok _ => False | UB w => y = UB w | Throw w => y = Throw w | NoFuel => y = NoFuel end.
Definition filling (s : state) := fill (s_grids s) (s_masks s) (s_u s) (s_dt s).

Lemma mrun_safe n : VISCOUS o = true -> (0 < CFL)%R -> (0 < tf)%R -> (forall g, nan g = false) ->
  (forall m g k dt, length g = n -> length k = n -> safe_outcome (fun g' => length g' = n) (advance m g k dt)) ->
  (forall gs ms u dt, shaped n MPs gs ms -> length u = n -> forall u' gs' ms', fill gs ms u dt = Ok (u', gs', ms') -> length u' = n /\ shaped n MPs gs' ms') ->
  forall fuel s, inv tf s -> length (s_u s) = n -> shaped n MPs (s_grids s) (s_masks s) ->
  safe_outcome (fun r => length (s_u (fst r)) = n /\ snd r = false) (run fuel s) \/
  exists s', reached s s' /\ (s_t s' < tf)%R /\ length (s_u s') = n /\ shaped n MPs (s_grids s') (s_masks s') /\ same_failure (filling s') (run fuel s).
Proof using HL HMP.
  intros HV HC HT HN HA HF. assert (NE : MPs <> []) by (intros X; rewrite X in HMP; cbn in HMP; lia).
  induction fuel as [|fuel IH]; intros s I Lu SH; cbn [IterModel.run]; destruct (Rlt_dec (s_t s) tf) as [L|L].
  1: left; right; right; reflexivity.
  1,3: rewrite wr_ok by (rewrite (inv_len _ _ I); lia); cbn [bind]; left; left; eexists; (split; [reflexivity|]); split; [exact Lu|reflexivity].
  pose proof (mturn s) as ET. destruct (fill (s_grids s) (s_masks s) (s_u s) (s_dt s)) as [[[u0 gs] ms]|w|w|] eqn:EF; cbn [bind] in ET.
  2-4: right; exists s; split; [constructor|]; split; [exact L|]; split; [exact Lu|]; split; [exact SH|]; unfold filling, same_failure; rewrite EF, ET; reflexivity.
  destruct (HF _ _ _ _ SH Lu _ _ _ EF) as [L0 SH0].
  destruct (timestep_respects_cfl speed n MPs gs ms dX CFL (s_t s) tf (s_count s) SH0 NE HC ltac:(lra)) as (dt & ED & LE & _).
  rewrite ED in ET. cbn [bind] in ET.
  destruct (advance_all_safe n gs ms dt SH0 ltac:(intros; apply HA; assumption)) as [(gs1 & EA & SH1)|[EA|EA]]; rewrite EA in ET; cbn [bind] in ET;
    [|rewrite ET; left; right; left; reflexivity|rewrite ET; left; right; right; reflexivity].
  rewrite <- L0 in SH1. destruct (make_u_assembles o MPs gs1 ms u0 SH1 HMP) as (u1 & EU & LU & _). rewrite EU in ET. cbn [bind] in ET.
  destruct (mpost_returns (S (s_count s)) u1 HV) as (u' & EP & LP). rewrite EP in ET. cbn [bind] in ET. rewrite HN in ET.
  assert (X : exists s', turn s = Ok (inl s') /\ s_u s' = u' /\ s_grids s' = gs1 /\ s_masks s' = ms).
  { destruct (Rle_dec _ _) as [LS|LS] in ET.
    - rewrite wr_ok in ET by (rewrite (inv_len _ _ I); exact (snapshot_fits tf HT s dt I LE LS)). cbn [bind] in ET. eexists. split; [exact ET|]. repeat split.
    - cbn [bind] in ET. eexists. split; [exact ET|]. repeat split. }
  destruct X as (s' & ET' & EU' & EG' & EK'). pose proof (turn_inv o svd speed fill advance nan ROT dX CFL tf tol MPs HC s _ L I ET') as TI. rewrite ET'. cbn [bind].
  destruct (IH s' TI) as [X|(s2 & R2 & X)]; [congruence|rewrite EG', EK', <- L0; exact SH1|left; exact X|].
  right. exists s2. split; [apply (reached_first s s'); assumption|exact X].
Qed.

(** ** what every turn keeps *)
Lemma mrun_keeps (P : R -> grid -> Prop) : (0 < CFL)%R ->
  (forall s u0 gs ms dt gs1 u1 u', (s_t s < tf)%R -> (s_t s <= s_t s + dt)%R -> P (s_t s) (s_u s) -> fill (s_grids s) (s_masks s) (s_u s) (s_dt s) = Ok (u0, gs, ms) ->
     advance_all advance MPs gs ms dt = Ok gs1 -> make_u o MPs gs1 ms u0 = Ok u1 -> mpost (S (s_count s)) u1 = Ok u' -> P (s_t s + dt)%R u') ->
  forall fuel s s' b, P (s_t s) (s_u s) -> (forall i x, bdat (s_ret s) i = Some x -> slot_ok P x) -> run fuel s = Ok (s', b) ->
    P (s_t s') (s_u s') /\ (forall i x, bdat (s_ret s') i = Some x -> slot_ok P x).
Proof using HL.
  clear HMP. intros HC HP. induction fuel as [|fuel IH]; intros s s' b P0 S0 E; cbn [IterModel.run] in E; destruct (Rlt_dec (s_t s) tf) as [L|L]; try discriminate.
  2: apply bind_ok in E; destruct E as (r & ER & E).
  1,3: apply bind_ok in E; destruct E as (ret & W & E); injection E as <- <-; cbn [s_u s_t s_ret]; (split; [exact P0|]); intros i x Hx; apply wr_inv in W;
    destruct W as [_ ->]; cbn [bdat] in Hx; unfold upd in Hx; (destruct (Nat.eqb i 99); [injection Hx as <-; right; exact P0|apply (S0 i), Hx]).
  rewrite mturn in ER. apply bind_ok in ER. destruct ER as ([[u0 gs] ms] & EF & ER). apply bind_ok in ER. destruct ER as ([dt|] & ED & ER); [|discriminate].
  apply bind_ok in ER. destruct ER as (gs1 & EA & ER). apply bind_ok in ER. destruct ER as (u1 & EU & ER). apply bind_ok in ER. destruct ER as (u' & EP & ER).
  pose proof (timestep_pos speed dX CFL tf MPs _ _ _ _ _ HC L ED) as DP.
  pose proof (HP s u0 gs ms dt gs1 u1 u' L ltac:(lra) P0 EF EA EU EP) as P1.
  apply bind_ok in ER. destruct ER as ([ret push] & EW & ER).
  assert (S1 : forall i x, bdat ret i = Some x -> slot_ok P x).
  { destruct (Rle_dec _ _).
    - apply bind_ok in EW. destruct EW as (r1 & W & EW). injection EW as <- <-. apply wr_inv in W. destruct W as [_ ->]. intros i x Hx. cbn [bdat] in Hx. unfold upd in Hx.
      destruct (Nat.eqb i (s_push s)); [injection Hx as <-; right; exact P1|apply (S0 i), Hx].
    - injection EW as <- <-. exact S0. }
  destruct (nan u').
  - apply bind_ok in ER. destruct ER as (r1 & W1 & ER). apply bind_ok in ER. destruct ER as (r2 & W2 & ER). injection ER as <-. injection E as <- <-.
    cbn [s_u s_t s_ret]. split; [exact P1|]. apply wr_inv in W1. destruct W1 as [_ ->]. apply wr_inv in W2. destruct W2 as [_ ->]. intros i x Hx. cbn [bdat] in Hx. unfold upd in Hx.
    destruct (Nat.eqb i (push + 1)); [injection Hx as <-; right; exact P1|]. destruct (Nat.eqb i push); [injection Hx as <-; right; exact P0|apply (S1 i), Hx].
  - injection ER as <-. refine (IH _ _ _ _ _ E); cbn [s_u s_t s_ret]; assumption.
Qed.
(** ** runs that end; NAN: whether a step may end with a NaN *)
Definition done (NAN : Prop) {A} (P : A -> Prop) (r : res A) : Prop := (exists x, r = Ok x /\ P x) \/ (NAN /\ r = Throw "NaN").
Lemma advance_all_done NAN n gs ms dt : shaped n MPs gs ms ->
  (forall m g k, In m MPs -> length g = n -> length k = n -> done NAN (fun g' => length g' = n) (advance m g k dt)) ->
  done NAN (fun gs' => shaped n MPs gs' ms) (advance_all advance MPs gs ms dt).
Proof using.
  clear HL HMP. intros SH HA. unfold advance_all. assert (X : forall k lo s, lo + k <= length MPs -> shaped n MPs s ms -> done NAN (fun gs' => shaped n MPs gs' ms) (for_loop k lo
    (fun i us => m <- UtilsModel.get MPs i ;; if mp_void m then Ok us else u <- UtilsModel.get us i ;; mask <- UtilsModel.get ms i ;; u' <- advance m u mask dt ;; Ok (firstn i us ++ u' :: skipn (S i) us)) s)).
  { induction k as [|k IH]; intros lo s Hk SS; cbn [for_loop]; [left; eauto|]. pose proof SS as [S1 [S2 [S3 S4]]].
    destruct (get_ok MPs lo ltac:(lia)) as [m [-> Em]]. cbn [bind]. destruct (mp_void m); [cbn [bind]; apply IH; [lia|exact SS]|].
    destruct (get_ok s lo ltac:(lia)) as [g [-> Eg]]. destruct (get_ok ms lo ltac:(lia)) as [m' [-> Ek]]. cbn [bind].
    destruct (HA m g m') as [(g' & -> & Lg)|[HNa ->]]; [apply (nth_error_In _ _ Em)|apply S3, (nth_error_In _ _ Eg)|apply S4, (nth_error_In _ _ Ek)|..]; cbn [bind]; [|right; split; [exact HNa|reflexivity]].
    apply IH; [lia|]. split; [|split; [exact S2|split; [|exact S4]]].
    - rewrite app_length. cbn [length]. rewrite firstn_length, skipn_length. lia.
    - intros x Hx. apply in_app_iff in Hx. destruct Hx as [Hx|[<-|Hx]]; [apply S3; rewrite <- (firstn_skipn lo s); apply in_app_iff; left; exact Hx|exact Lg|].
      apply S3. rewrite <- (firstn_skipn (S lo) s). apply in_app_iff. right. exact Hx. }
  apply (X (length MPs) 0 gs); [lia|exact SH].
Qed.
Lemma mrun_ends NAN n M : VISCOUS o = true -> (0 < CFL)%R -> (0 < tf)%R -> (forall g, nan g = false) -> (0 < M)%R -> (forall q m r, rate speed dX q m = Some r -> (r <= M)%R) ->
  (forall m g k dt, In m MPs -> length g = n -> length k = n -> done NAN (fun g' => length g' = n) (advance m g k dt)) ->
  (forall gs ms u dt, shaped n MPs gs ms -> length u = n -> forall u' gs' ms', fill gs ms u dt = Ok (u', gs', ms') -> length u' = n /\ shaped n MPs gs' ms') ->
  forall fuel s, inv tf s -> length (s_u s) = n -> shaped n MPs (s_grids s) (s_masks s) -> s_t s = tf \/ (tf - s_t s < INR fuel * (CFL / M / 5))%R ->
  done NAN (fun r => length (s_u (fst r)) = n /\ snd r = false) (run fuel s) \/
  exists s', reached s s' /\ (s_t s' < tf)%R /\ length (s_u s') = n /\ shaped n MPs (s_grids s') (s_masks s') /\ same_failure (filling s') (run fuel s).
Proof using HL HMP.
  intros HV HC HT HN M0 B HA HF. assert (NE : MPs <> []) by (intros X; rewrite X in HMP; cbn in HMP; lia).
  assert (D : (0 < CFL / M / 5)%R) by (assert (0 < CFL / M)%R by (apply Rdiv_lt_0_compat; assumption); lra).
  induction fuel as [|fuel IH]; intros s I Lu SH FU; cbn [IterModel.run]; destruct (Rlt_dec (s_t s) tf) as [L|L].
  1: destruct FU as [FU|FU]; cbn in FU; lra.
  1,3: rewrite wr_ok by (rewrite (inv_len _ _ I); lia); cbn [bind]; left; left; eexists; (split; [reflexivity|]); split; [exact Lu|reflexivity].
  pose proof (mturn s) as ET. destruct (fill (s_grids s) (s_masks s) (s_u s) (s_dt s)) as [[[u0 gs] ms]|w|w|] eqn:EF; cbn [bind] in ET.
  2-4: right; exists s; split; [constructor|]; split; [exact L|]; split; [exact Lu|]; split; [exact SH|]; unfold filling, same_failure; rewrite EF, ET; reflexivity.
  destruct (HF _ _ _ _ SH Lu _ _ _ EF) as [L0 SH0].
  destruct (timestep_respects_cfl speed n MPs gs ms dX CFL (s_t s) tf (s_count s) SH0 NE HC ltac:(lra)) as (dt & ED & LE & _).
  pose proof (timestep_progress speed dX CFL tf MPs M _ _ _ _ _ HC M0 B ED) as PR.
  rewrite ED in ET. cbn [bind] in ET.
  destruct (advance_all_done NAN n gs ms dt SH0 ltac:(intros; apply HA; assumption)) as [(gs1 & EA & SH1)|[HNa EA]]; rewrite EA in ET; cbn [bind] in ET;
    [|rewrite ET; left; right; split; [exact HNa|reflexivity]].
  rewrite <- L0 in SH1. destruct (make_u_assembles o MPs gs1 ms u0 SH1 HMP) as (u1 & EU & LU & _). rewrite EU in ET. cbn [bind] in ET.
  destruct (mpost_returns (S (s_count s)) u1 HV) as (u' & EP & LP). rewrite EP in ET. cbn [bind] in ET. rewrite HN in ET.
  assert (X : exists s', turn s = Ok (inl s') /\ s_u s' = u' /\ s_grids s' = gs1 /\ s_masks s' = ms /\ s_t s' = (s_t s + dt)%R).
  { destruct (Rle_dec _ _) as [LS|LS] in ET.
    - rewrite wr_ok in ET by (rewrite (inv_len _ _ I); exact (snapshot_fits tf HT s dt I LE LS)). cbn [bind] in ET. eexists. split; [exact ET|]. repeat split.
    - cbn [bind] in ET. eexists. split; [exact ET|]. repeat split. }
  destruct X as (s' & ET' & EU' & EG' & EK' & T'). pose proof (turn_inv o svd speed fill advance nan ROT dX CFL tf tol MPs HC s _ L I ET') as TI. rewrite ET'. cbn [bind].
  destruct (IH s' TI) as [X|(s2 & R2 & X)]; [congruence|rewrite EG', EK', <- L0; exact SH1| |left; exact X|].
  - rewrite T'. rewrite S_INR in FU. destruct PR as [PR|PR]; [left; exact PR|right]. destruct FU as [FU|FU]; lra.
  - right. exists s2. split; [apply (reached_first s s'); assumption|exact X].
Qed.
End Many.
