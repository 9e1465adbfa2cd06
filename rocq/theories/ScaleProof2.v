(** A whole run in another unit of length and time: every time is [lam] times as large, everything else is the same. *)
From Coq Require Import Reals Lia Lra FunctionalExtensionality.
From Verif Require Import Base Options Sum Mat3 EqModel FvModel FvBody WenoModel DgModel GridModel StepperModel AderModel HomogModel PhysModel UtilsModel IterModel StepperProps RunModel ScaleProof1.
Import List ListNotations.
Open Scope R_scope.

(** the same output and state, with the times multiplied by lam *)
Definition later_output (lam : R) (r : output) : output := mkbuf (blen r) (fun i => option_map (fun p => (fst p, lam * snd p)) (bdat r i)).
Definition later (lam : R) (x : state) : state :=
  mkstate (s_u x) (s_grids x) (s_masks x) (lam * s_t x) (lam * s_dt x) (s_count x) (s_push x) (later_output lam (s_ret x)).
Definition res_map {A B} (f : A -> B) (r : res A) : res B := x <- r ;; Ok (f x).

Lemma for_loop_map {A} (g : A -> A) (f f' : nat -> A -> res A) n : (forall i x, f' i (g x) = res_map g (f i x)) -> forall lo x, for_loop n lo f' (g x) = res_map g (for_loop n lo f x).
Proof.
  intros H. induction n as [|n IH]; intros lo x; cbn [for_loop]; [reflexivity|]. rewrite H. unfold res_map at 1. destruct (f lo x); cbn [bind]; try reflexivity. apply IH.
Qed.
Lemma for_loop_eq {A} (f f' : nat -> A -> res A) n : (forall i x, f' i x = f i x) -> forall lo x, for_loop n lo f' x = for_loop n lo f x.
Proof.
  intros H. induction n as [|n IH]; intros lo x; cbn [for_loop]; [reflexivity|]. rewrite H. destruct (f lo x); cbn [bind]; try reflexivity. apply IH.
Qed.
Lemma get_map {A B} (f : A -> B) l i : UtilsModel.get (map f l) i = res_map f (UtilsModel.get l i).
Proof. unfold UtilsModel.get. rewrite nth_error_map. destruct (nth_error l i); reflexivity. Qed.

Section Iter.
Variable lam : R.
Hypothesis L : 0 < lam.
Variable o : options.
Variable svd : mat3 -> vec3 * mat3.
Variables speed speed' : vec -> nat -> matpar -> option R.
Variables fill fill' : list grid -> list (list bool) -> grid -> R -> res (grid * list grid * list (list bool)).
Variables advance advance' : matpar -> grid -> list bool -> R -> res grid.
Variable nan : grid -> bool.
Variable ROT : bool.
Variables (dX : list R) (CFL tf tol : R) (MPs : list matpar).
(** the materials in the new unit *)
Variable sim : matpar -> matpar.
Hypothesis Hvoid : forall m, mp_void (sim m) = mp_void m.
Hypothesis Hrho : forall m, rho0 (prm (mp_par (sim m))) = rho0 (prm (mp_par m)).
Hypothesis HE : forall m r A, E_2A (mp_par (sim m)) r A = E_2A (mp_par m) r A.
Hypothesis Hspeed : forall q d m, speed' q d (sim m) = speed q d m.
Hypothesis Hadv : forall m g k dt, In m MPs -> advance' (sim m) g k (lam * dt) = advance m g k dt.
Hypothesis HL : LSET o = 0%nat.
Notation dX' := (map (Rmult lam) dX).
Notation tf' := (lam * tf).
Notation MPs' := (map sim MPs).

Lemma rate_scale q m : rate speed' dX' q (sim m) = option_map (fun x => x / lam) (rate speed dX q m).
Proof using Hspeed L.
  unfold rate. assert (G : forall l d acc acc', acc' = option_map (fun x => x / lam) acc -> rate_from speed' d (map (Rmult lam) l) acc' q (sim m) = option_map (fun x => x / lam) (rate_from speed d l acc q m)).
  { induction l as [|h l IH]; intros d acc acc' H; cbn [map rate_from]; [exact H|]. apply IH. rewrite H, Hspeed. destruct acc as [a|]; cbn [option_map]; [|reflexivity]. destruct (speed q d m) as [c|]; [|reflexivity]. cbn [option_map]. f_equal. unfold Rdiv. rewrite Rinv_mult. ring. }
  apply G. cbn [option_map]. f_equal. unfold Rdiv. ring.
Qed.
Lemma div_lt a b : a / lam < b / lam <-> a < b.
Proof using L. unfold Rdiv. pose proof (Rinv_0_lt_compat lam L) as I. split; intros H; [apply (Rmult_lt_reg_r (/ lam)); assumption|apply Rmult_lt_compat_r; assumption]. Qed.
Lemma smax_scale a x : smax (a / lam) (option_map (fun x => x / lam) x) = smax a x / lam.
Proof using L. destruct x as [x|]; [|reflexivity]. cbn [option_map smax]. unfold cmax. pose proof (div_lt a x). destruct (Rlt_dec a x), (Rlt_dec (a / lam) (x / lam)); tauto || reflexivity. Qed.
Lemma max_rate_scale grids masks n : max_rate speed' MPs' grids masks dX' n = res_map (fun x => x / lam) (max_rate speed MPs grids masks dX n).
Proof using Hspeed Hvoid L.
  unfold max_rate. destruct (UtilsModel.get grids 0) as [g0| | |]; cbn [bind res_map]; try reflexivity. replace 0 with (0 / lam) at 1 by (unfold Rdiv; ring).
  apply (for_loop_map (fun x => x / lam)). intros mat x. rewrite get_map. destruct (UtilsModel.get MPs mat) as [m| | |]; cbn [bind res_map]; try reflexivity. rewrite Hvoid. destruct (mp_void m); [reflexivity|].
  apply (for_loop_map (fun x => x / lam)). intros i y. destruct (UtilsModel.get masks mat) as [k| | |]; cbn [bind res_map]; try reflexivity. destruct (UtilsModel.get k i) as [b| | |]; cbn [bind]; try reflexivity. destruct b; [|reflexivity].
  destruct (UtilsModel.get grids mat) as [g| | |]; cbn [bind]; try reflexivity. destruct (UtilsModel.get g i) as [q| | |]; cbn [bind]; try reflexivity. rewrite rate_scale, smax_scale. reflexivity.
Qed.
Lemma timestep_scale grids masks t c n : timestep speed' MPs' grids masks dX' CFL (lam * t) tf' c n = res_map (option_map (Rmult lam)) (timestep speed MPs grids masks dX CFL t tf c n).
Proof using Hspeed Hvoid L.
  clear fill fill'. unfold timestep. rewrite max_rate_scale. destruct (max_rate speed MPs grids masks dX n) as [M| | |]; cbn [bind res_map]; try reflexivity.
  assert (LI : / lam <> 0) by (apply Rinv_neq_0_compat; lra).
  destruct (Req_EM_T (M / lam) 0) as [E|E], (Req_EM_T M 0) as [E'|E'].
  - destruct (Rlt_dec 0 CFL); cbn [bind res_map option_map]; [|reflexivity]. do 2 f_equal. ring.
  - exfalso. unfold Rdiv in E. apply Rmult_integral in E. tauto.
  - exfalso. apply E. rewrite E'. unfold Rdiv. ring.
  - cbv zeta. replace (CFL / (M / lam)) with (lam * (CFL / M)) by (unfold Rdiv; rewrite !Rinv_mult, Rinv_inv; ring).
    set (dt := if Nat.leb c 5 then CFL / M * (2 / 10) else CFL / M). replace (if Nat.leb c 5 then lam * (CFL / M) * (2 / 10) else lam * (CFL / M)) with (lam * dt) by (unfold dt; destruct (Nat.leb c 5); ring).
    cbn [bind res_map option_map]. do 2 f_equal. destruct (Rlt_dec tf (t + dt)) as [H|H], (Rlt_dec (lam * tf) (lam * t + lam * dt)) as [H'|H']; try ring; exfalso.
    + apply H'. rewrite <- Rmult_plus_distr_l. apply Rmult_lt_compat_l; assumption.
    + apply H. rewrite <- Rmult_plus_distr_l in H'. apply Rmult_lt_reg_l in H'; assumption.
Qed.
Lemma renorm_scale i q : renorm_cell o MPs' i q = renorm_cell o MPs i q.
Proof using Hvoid Hrho. unfold renorm_cell. rewrite get_map. destruct (UtilsModel.get MPs _) as [m| | |]; cbn [bind res_map]; try reflexivity. rewrite Hvoid, Hrho. reflexivity. Qed.
Lemma rotate_scale i q : rotate_cell o svd MPs' i q = rotate_cell o svd MPs i q.
Proof using Hvoid. unfold rotate_cell. rewrite get_map. destruct (UtilsModel.get MPs _) as [m| | |]; cbn [bind res_map]; try reflexivity. rewrite Hvoid. reflexivity. Qed.
Lemma reset_scale i q : reset_cell o MPs' i q = reset_cell o MPs i q.
Proof using Hvoid Hrho HE. unfold reset_cell. rewrite get_map. destruct (UtilsModel.get MPs _) as [m| | |]; cbn [bind res_map]; try reflexivity. rewrite Hvoid, Hrho, HE. reflexivity. Qed.
Lemma each_eq f f' : (forall i q, f' i q = f i q) -> forall (u : grid) i, each_cell f' i u = each_cell f i u.
Proof using. intros H. induction u as [|q u IH]; intros i; cbn [each_cell]; [reflexivity|]. rewrite H. apply bind_ext. intros x. rewrite IH. reflexivity. Qed.
Lemma advance_all_scale grids masks dt : advance_all advance' MPs' grids masks (lam * dt) = advance_all advance MPs grids masks dt.
Proof using Hvoid Hadv.
  unfold advance_all. rewrite map_length. apply for_loop_eq. intros mat gs. rewrite get_map. destruct (UtilsModel.get MPs mat) as [m| | |] eqn:EM; cbn [bind res_map]; try reflexivity. rewrite Hvoid. destruct (mp_void m); [reflexivity|].
  unfold UtilsModel.get in EM. destruct (nth_error MPs mat) as [m'|] eqn:EN; [|discriminate]. injection EM as ->. apply nth_error_In in EN. apply bind_ext. intros g. apply bind_ext. intros k. rewrite Hadv by exact EN. reflexivity.
Qed.
Lemma wr_later (r : output) i u t : wr (later_output lam r) i (u, lam * t) = res_map (later_output lam) (wr r i (u, t)).
Proof using.
  clear L. unfold wr. cbn [later_output blen]. destruct (Nat.ltb i (blen r)); [|reflexivity]. cbn [res_map bind]. f_equal. unfold later_output. cbn [blen bdat]. f_equal. apply functional_extensionality. intros j.
  unfold upd. destruct (Nat.eqb j i); reflexivity.
Qed.
Definition later_turn (r : state + state) : state + state := match r with inl x => inl (later lam x) | inr x => inr (later lam x) end.
Notation turn := (turn o svd speed fill advance nan ROT dX CFL tf tol MPs).
Notation turn' := (IterModel.turn o svd speed' fill' advance' nan ROT dX' CFL tf' tol MPs').
Lemma turn_scale x : turn' (later lam x) = res_map later_turn (turn x).
Proof using Hvoid Hrho HE Hspeed Hadv HL L.
  unfold IterModel.turn. rewrite HL. cbn [Nat.ltb Nat.leb later s_u s_grids s_masks s_t s_dt s_count s_push s_ret]. destruct (s_grids x) as [|g0 gs]; [reflexivity|]. cbn [bind].
  rewrite map_length, timestep_scale. destruct (timestep speed MPs _ _ _ _ _ _ _ _) as [[dt|]| | |]; cbn [bind res_map option_map]; try reflexivity.
  rewrite advance_all_scale. destruct (advance_all _ _ _ _ _) as [grids| | |]; cbn [bind]; try reflexivity. destruct (UtilsModel.get grids 0) as [u| | |]; cbn [bind]; try reflexivity.
  unfold renorm_distortion, rotate_distortion, reset_distortion.
  rewrite (each_eq _ _ renorm_scale). destruct (each_cell _ _ _) as [u1| | |]; cbn [bind]; try reflexivity. rewrite (each_eq _ _ rotate_scale).
  destruct (if (_ && ROT)%bool then _ else _) as [u2| | |]; cbn [bind]; try reflexivity. destruct (contorted o svd tol u2) as [b| | |]; cbn [bind]; try reflexivity. rewrite (each_eq _ _ reset_scale).
  destruct (if b then _ else _) as [u3| | |]; cbn [bind]; try reflexivity.
  rewrite <- Rmult_plus_distr_l.
  assert (E : forall r p, (if nan u3 then ret <- wr (later_output lam r) p (s_u x, lam * s_t x) ;; ret <- wr ret (p + 1) (u3, lam * (s_t x + dt)) ;; Ok (inr (mkstate u3 grids (s_masks x) (lam * (s_t x + dt)) (lam * dt) (S (s_count x)) p ret))
      else Ok (inl (mkstate u3 grids (s_masks x) (lam * (s_t x + dt)) (lam * dt) (S (s_count x)) p (later_output lam r)))) =
    res_map later_turn (if nan u3 then ret <- wr r p (s_u x, s_t x) ;; ret <- wr ret (p + 1) (u3, s_t x + dt) ;; Ok (inr (mkstate u3 grids (s_masks x) (s_t x + dt) dt (S (s_count x)) p ret))
      else Ok (inl (mkstate u3 grids (s_masks x) (s_t x + dt) dt (S (s_count x)) p r)))).
  { intros r p. destruct (nan u3); [|reflexivity]. rewrite wr_later. destruct (wr r p _) as [r1| | |]; cbn [bind res_map]; try reflexivity. rewrite wr_later. destruct (wr r1 (p + 1) _) as [r2| | |]; reflexivity. }
  set (a := INR (s_push x + 1) / 100). replace (a * (lam * tf)) with (lam * (a * tf)) by ring.
  destruct (Rle_dec (a * tf) (s_t x + dt)) as [H|H], (Rle_dec (lam * (a * tf)) (lam * (s_t x + dt))) as [H'|H'].
  - rewrite wr_later. destruct (wr (s_ret x) (s_push x) _) as [r1| | |]; cbn [bind res_map]; try reflexivity. apply E.
  - exfalso. apply H'. apply Rmult_le_compat_l; [lra|exact H].
  - exfalso. apply H. apply Rmult_le_reg_l in H'; assumption.
  - cbn [bind]. apply E.
Qed.
Definition later_run (r : state * bool) : state * bool := (later lam (fst r), snd r).
Lemma run_scale : forall fuel x, run o svd speed' fill' advance' nan ROT dX' CFL tf' tol MPs' fuel (later lam x) = res_map later_run (run o svd speed fill advance nan ROT dX CFL tf tol MPs fuel x).
Proof using Hvoid Hrho HE Hspeed Hadv HL L.
  assert (B : forall t, lam * t < lam * tf <-> t < tf).
  { intros t. split; intros H; [apply Rmult_lt_reg_l in H; assumption|apply Rmult_lt_compat_l; assumption]. }
  induction fuel as [|fuel IH]; intros x; cbn [run]; pose proof (B (s_t x)) as Bx; cbn [later s_u s_grids s_masks s_t s_dt s_count s_push s_ret];
    destruct (Rlt_dec (s_t x) tf) as [H|H], (Rlt_dec (lam * s_t x) (lam * tf)) as [H'|H']; try (exfalso; tauto); try reflexivity.
  1,3: rewrite wr_later; destruct (wr (s_ret x) 99 _) as [r| | |]; reflexivity.
  fold (later lam x). rewrite turn_scale. destruct (turn x) as [[y|y]| | |]; cbn [bind res_map later_turn]; try reflexivity. apply IH.
Qed.
Lemma iterator_scale fuel u : iterator o svd speed' fill' advance' nan ROT dX' CFL tf' tol MPs' fuel u = res_map later_run (iterator o svd speed fill advance nan ROT dX CFL tf tol MPs fuel u).
Proof using Hvoid Hrho HE Hspeed Hadv HL L.
  unfold iterator. rewrite <- run_scale. f_equal. unfold init, later. cbn [s_u s_grids s_masks s_t s_dt s_count s_push s_ret]. rewrite map_length. f_equal; try ring.
  unfold ret0, later_output. cbn [blen bdat option_map fst snd]. f_equal. apply functional_extensionality. intros i. rewrite Rmult_0_r. reflexivity.
Qed.
End Iter.
