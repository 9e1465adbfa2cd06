(** A whole run of one material commutes with making a grid of n' cells out of one of n cells, when its steps do: cell c of
    the new grid is cell s c of the old one, changed by T c. *)
From Coq Require Import Reals Lia Lra ZArith Permutation.
From Verif Require Import Base Options Mat3 PhysModel UtilsModel UtilsProof UtilsProps IterModel IterSpec IterProof IterProof2 IterProps RunProof2 Run2Props RefProof3.
Import List ListNotations.
Open Scope nat_scope.

Definition copies (n' : nat) (T : nat -> vec -> vec) (s : nat -> nat) (g : grid) : grid := map (fun c => T c (nth (s c) g (fun _ => 0%R))) (seq 0 n').
Definition covers (n n' : nat) (s : nat -> nat) : Prop := (forall c, c < n' -> s c < n) /\ forall c, c < n -> exists c', c' < n' /\ s c' = c.
Lemma copies_length n' T s g : length (copies n' T s g) = n'.
Proof. unfold copies. rewrite map_length, seq_length. reflexivity. Qed.
Lemma copies_nth n' T s (g : grid) c d : c < n' -> nth c (copies n' T s g) d = T c (nth (s c) g (fun _ => 0%R)).
Proof.
  intros H. unfold copies. rewrite (nth_indep _ d ((fun c => T c (nth (s c) g (fun _ => 0%R))) 0)) by (rewrite map_length, seq_length; exact H).
  rewrite (map_nth (fun c => T c (nth (s c) g (fun _ => 0%R)))), seq_nth by exact H. reflexivity.
Qed.
Lemma copies_in n' T s (g : grid) q : covers (length g) n' s -> In q (copies n' T s g) -> exists c q0, In q0 g /\ q = T c q0.
Proof.
  intros [P _] H. unfold copies in H. apply in_map_iff in H. destruct H as (c & <- & Hc). apply in_seq in Hc. exists c. eexists. split; [|reflexivity]. apply nth_In, P. lia.
Qed.
Lemma in_copies n' T s (g : grid) q : covers (length g) n' s -> In q g -> exists c, In (T c q) (copies n' T s g).
Proof.
  intros [_ P] H. apply (In_nth _ _ (fun _ => 0%R)) in H. destruct H as (c & Hc & <-). destruct (P c Hc) as (c' & Hc' & <-). exists c'. unfold copies. apply in_map_iff. exists c'. split; [reflexivity|apply in_seq; lia].
Qed.
(** slots never written hold a grid without cells *)
Definition drawing (n' : nat) (T : nat -> vec -> vec) (s : nat -> nat) (g : grid) : grid := match g with [] => [] | _ => copies n' T s g end.
(** the same in every slot of the output that has been written *)
Definition copies_output (n' : nat) (T : nat -> vec -> vec) (s : nat -> nat) (r : output) : output := mkbuf (blen r) (fun i => option_map (fun p => (drawing n' T s (fst p), snd p)) (bdat r i)).
Definition copies_state (n' : nat) (T : nat -> vec -> vec) (s : nat -> nat) (x : state) : state :=
  mkstate (copies n' T s (s_u x)) (map (copies n' T s) (s_grids x)) (map (fun _ => repeat true n') (s_masks x)) (s_t x) (s_dt x) (s_count x) (s_push x) (copies_output n' T s (s_ret x)).

Section Sym.
Variable o : options.
Variable svd : mat3 -> vec3 * mat3.
Variable speed : vec -> nat -> matpar -> option R.
Variables fill fill' : list grid -> list (list bool) -> grid -> R -> res (grid * list grid * list (list bool)).
Variables advance advance' : matpar -> grid -> list bool -> R -> res grid.
Variable nan : grid -> bool.
Variable ROT : bool.
Variables (dX : list R) (CFL tf tol : R) (m : matpar).
Notation turn f a := (turn o svd speed f a nan ROT dX CFL tf tol [m]).
Notation run f a := (run o svd speed f a nan ROT dX CFL tf tol [m]).
Hypothesis HM : mp_void m = false.
Variable T : nat -> vec -> vec.
Variable s : nat -> nat.
Variables n n' : nat.
Notation im := (copies n' T s).
Hypothesis Hs : covers n n' s.
(** the steps and the cell by cell corrections have the symmetry *)
(** ... at the states of a set Good, with the lengths of the steps *)
Variable Good : grid -> R -> Prop.
Hypothesis Hadv : forall g dt, length g = n -> Good g dt -> exists g1, advance m g (repeat true n) dt = Ok g1 /\ length g1 = n /\ advance' m (im g) (repeat true n') dt = Ok (im g1).
Definition commutes (f : nat -> vec -> res vec) : Prop := exists F, (forall i q, f i q = Ok (F q)) /\ forall c q, F (T c q) = T c (F q).
Hypothesis Hrate : forall c q, rate speed dX (T c q) m = rate speed dX q m.
Hypothesis Hlim : MULTI o = true -> commutes (fun _ q => match limit_concentration o [q] with [q] => Ok q | _ => UB "" end).
Hypothesis Hren : commutes (renorm_cell o [m]).
Hypothesis Hrot : ROT = true -> commutes (rotate_cell o svd [m]).
Hypothesis Hres : commutes (reset_cell o [m]).
Hypothesis Hcon : forall c q, contorted_cell svd tol (T c q) = contorted_cell svd tol q.
Hypothesis Hnan : forall g, length g = n -> nan (im g) = nan g.
Hypothesis HV : VISCOUS o = true.

Lemma map_copies F (g : grid) : length g = n -> (forall c q, F (T c q) = T c (F q)) -> map F (im g) = im (map F g).
Proof using Hs.
  intros Lg H. unfold copies. rewrite map_map. apply map_ext_in. intros c Hc. apply in_seq in Hc. rewrite H. f_equal.
  rewrite (nth_indep (map F g) (fun _ => 0%R) (F (fun _ => 0%R))) by (rewrite map_length; destruct Hs as [P _]; rewrite Lg; apply P; lia). rewrite map_nth. reflexivity.
Qed.
Lemma each_map f F : (forall i q, f i q = Ok (F q)) -> forall (g : grid) i, each_cell f i g = Ok (map F g).
Proof using. intros H. induction g as [|q g IH]; intros i; cbn [each_cell map]; [reflexivity|]. rewrite H. cbn [bind]. rewrite IH. reflexivity. Qed.
Lemma each_copies f (g : grid) : length g = n -> commutes f -> exists g1, each_cell f 0 g = Ok g1 /\ length g1 = n /\ each_cell f 0 (im g) = Ok (im g1).
Proof using Hs.
  intros Lg (F & HF & HT). exists (map F g). rewrite !(each_map f F HF). split; [reflexivity|]. split; [rewrite map_length; exact Lg|]. rewrite map_copies by assumption. reflexivity.
Qed.
Lemma limit_copies (g : grid) : length g = n -> length (limit_concentration o g) = n /\ limit_concentration o (im g) = im (limit_concentration o g).
Proof using Hs Hlim.
  intros Lg. unfold limit_concentration in *. destruct (MULTI o); [|auto]. rewrite map_length. split; [exact Lg|]. apply map_copies; [exact Lg|].
  destruct (Hlim eq_refl) as (F & HF & HT). cbn [map] in HF. intros c q. pose proof (HF 0 (T c q)) as E1. pose proof (HF 0 q) as E2. apply Ok_inj in E1, E2. rewrite E1, E2. apply HT.
Qed.
Lemma post_copies c (g : grid) : length g = n -> exists g1, post o svd ROT tol m c g = Ok g1 /\ length g1 = n /\ post o svd ROT tol m c (im g) = Ok (im g1).
Proof using Hs Hlim Hren Hrot Hres Hcon HV.
  intros Lg. unfold post, corrected. destruct (limit_copies g Lg) as [L1 ->]. unfold renorm_distortion.
  destruct (each_copies _ _ L1 Hren) as (g2 & E2 & L2 & E2'). rewrite E2, E2'. cbn [bind].
  assert (X : exists g3, (if (Nat.eqb (c mod 10) 0 && ROT)%bool then rotate_distortion o svd [m] g2 else Ok g2) = Ok g3 /\ length g3 = n /\ (if (Nat.eqb (c mod 10) 0 && ROT)%bool then rotate_distortion o svd [m] (im g2) else Ok (im g2)) = Ok (im g3)).
  { destruct (_ && _)%bool eqn:EB; [|exists g2; auto]. apply Bool.andb_true_iff in EB. destruct EB as [_ EB]. unfold rotate_distortion. apply each_copies; auto. }
  destruct X as (g3 & E3 & L3 & E3'). rewrite E3, E3'. cbn [bind]. unfold contorted. pose proof (V14 o HV) as V. destruct (Nat.ltb_spec (Options.V o) 14); [lia|]. cbn [bind].
  replace (existsb (contorted_cell svd tol) (im g3)) with (existsb (contorted_cell svd tol) g3).
  - destruct (existsb _ g3); [|exists g3; auto]. unfold reset_distortion. apply each_copies; assumption.
  - apply Bool.eq_true_iff_eq. rewrite !existsb_exists. split.
    + intros (q & Hq & E). destruct (in_copies n' T s g3 q ltac:(rewrite L3; exact Hs) Hq) as [c' Hc']. exists (T c' q). split; [exact Hc'|rewrite Hcon; exact E].
    + intros (q & Hq & E). apply copies_in in Hq; [|rewrite L3; exact Hs]. destruct Hq as (c' & q0 & Hq & ->). exists q0. rewrite Hcon in E. auto.
Qed.
Lemma in_active k (g : grid) q : length g = k -> In q g <-> exists i, active [m] [g] [repeat true k] 0 i q m.
Proof using HM.
  intros Lg. split.
  - intros H. apply In_nth_error in H. destruct H as [i Hi]. exists i. split; [reflexivity|]. split; [exact HM|]. split; [|exists g; auto]. exists (repeat true k). split; [reflexivity|]. apply nth_error_repeat.
    rewrite <- Lg. apply nth_error_Some. congruence.
  - intros [i (_ & _ & _ & g' & E & H)]. injection E as <-. apply nth_error_In in H. exact H.
Qed.
Lemma timestep_copies (g : grid) t c : length g = n -> timestep speed [m] [im g] [repeat true n'] dX CFL t tf c 1 = timestep speed [m] [g] [repeat true n] dX CFL t tf c 1.
Proof using HM Hs Hrate.
  intros Lg. unfold timestep.
  assert (SH : forall k (g : grid), length g = k -> shaped k [m] [g] [repeat true k]).
  { intros k h Lh. split; [reflexivity|]. split; [reflexivity|]. split; [intros x [<-|[]]; exact Lh|intros x [<-|[]]; apply repeat_length]. }
  assert (Li : length (im g) = n') by apply copies_length.
  destruct (max_rate_ok speed _ _ _ dX n (SH n g Lg) ltac:(discriminate)) as (M1 & E1 & P1 & A1 & B1).
  destruct (max_rate_ok speed _ _ _ dX n' (SH n' (im g) Li) ltac:(discriminate)) as (M2 & E2 & P2 & A2 & B2). cbn [length] in E1, E2. rewrite E1, E2.
  replace M2 with M1; [reflexivity|]. apply Rle_antisym.
  - destruct A1 as [->|(mat & i & q & m' & A & E)]; [exact P2|]. pose proof A as (Em & _ & _ & g' & Eg & Eq). destruct mat as [|[|mat]]; [|discriminate|discriminate]. injection Em as <-. injection Eg as <-.
    apply nth_error_In in Eq. apply (in_copies n' T s) in Eq; [|rewrite Lg; exact Hs]. destruct Eq as [c' Eq]. apply (in_active n' (im g) _ Li) in Eq. destruct Eq as [i' A']. apply (B2 _ _ _ _ _ A'). rewrite Hrate. exact E.
  - destruct A2 as [->|(mat & i & q & m' & A & E)]; [exact P1|]. pose proof A as (Em & _ & _ & g' & Eg & Eq). destruct mat as [|[|mat]]; [|discriminate|discriminate]. injection Em as <-. injection Eg as <-.
    apply nth_error_In in Eq. apply copies_in in Eq; [|rewrite Lg; exact Hs]. destruct Eq as (c' & q0 & Hq & ->). apply (in_active n g _ Lg) in Hq. destruct Hq as [i' A']. apply (B1 _ _ _ _ _ A'). rewrite <- (Hrate c'). exact E.
Qed.
Lemma drawn (g : grid) : length g = n -> drawing n' T s g = im g.
Proof using Hs.
  clear - Hs. intros L. unfold drawing. destruct g as [|q g]; [|reflexivity]. cbn in L. unfold copies. destruct n'; [reflexivity|]. destruct Hs as [P _]. specialize (P 0 ltac:(lia)). lia.
Qed.
Lemma wr_copies (r r' : output) i u t : wr r i (u, t) = Ok r' -> length u = n -> wr (copies_output n' T s r) i (im u, t) = Ok (copies_output n' T s r').
Proof using Hs.
  unfold wr. cbn [copies_output blen]. destruct (Nat.ltb i (blen r)); [|discriminate]. intros E L. apply Ok_inj in E. subst r'. f_equal. unfold copies_output. cbn [blen bdat]. f_equal. apply FunctionalExtensionality.functional_extensionality. intros j.
  unfold upd. destruct (Nat.eqb j i); [|reflexivity]. cbn [option_map fst snd]. rewrite drawn by exact L. reflexivity.
Qed.
Lemma wr_copies_not (r : output) i u t w : wr r i (u, t) = UB w -> wr (copies_output n' T s r) i (im u, t) = UB w.
Proof using. unfold wr. cbn [copies_output blen]. destruct (Nat.ltb i (blen r)); [discriminate|]. intros H. injection H as <-. reflexivity. Qed.
Lemma wr_cases (r : output) i v : (exists r', wr r i v = Ok r') \/ exists w, wr r i v = UB w.
Proof using. unfold wr. destruct (Nat.ltb i (blen r)); eauto. Qed.

Hypothesis HL : LSET o = 0.
Definition copies_turn (r : res (state + state)) : res (state + state) :=
  match r with Ok (inl x) => Ok (inl (copies_state n' T s x)) | Ok (inr x) => Ok (inr (copies_state n' T s x)) | e => e end.
Definition copies_run (r : res (state * bool)) : res (state * bool) :=
  match r with Ok (x, b) => Ok (copies_state n' T s x, b) | e => e end.
Lemma turn_copies x g0 : s_grids x = [g0] -> s_masks x = [repeat true n] -> length (s_u x) = n ->
  (forall dt, timestep speed [m] [s_u x] [repeat true n] dX CFL (s_t x) tf (s_count x) 1 = Ok (Some dt) -> Good (s_u x) dt) -> turn fill' advance' (copies_state n' T s x) = copies_turn (turn fill advance x) /\
  forall x', turn fill advance x = Ok (inl x') -> (exists g0', s_grids x' = [g0']) /\ s_masks x' = [repeat true n] /\ length (s_u x') = n.
Proof using HM Hs Hadv Hrate Hlim Hren Hrot Hres Hcon Hnan HV HL.
  intros EG EK Lu HP.
  rewrite (turn_single o svd speed fill advance nan ROT dX CFL tf tol m HL HM x g0 _ EG EK).
  rewrite (turn_single o svd speed fill' advance' nan ROT dX CFL tf tol m HL HM (copies_state n' T s x) (im g0) (repeat true n')) by (cbn [copies_state s_grids s_masks]; rewrite ?EG, ?EK; reflexivity).
  cbn [copies_state s_u s_t s_count s_push s_ret]. rewrite (timestep_copies (s_u x) _ _ Lu).
  destruct (timestep _ _ _ _ _ _ _ _ _ _) as [[dt|]| | |] eqn:ET; cbn [bind copies_turn]; try (split; [reflexivity|discriminate]).
  destruct (Hadv (s_u x) dt Lu (HP dt eq_refl)) as (u1 & -> & L1 & ->). cbn [bind].
  destruct (post_copies (S (s_count x)) u1 L1) as (u & -> & L & ->). cbn [bind]. rewrite (Hnan u L).
  assert (F : forall r p, ((let (r0, p0) := (r, p) in (fun ret push => if nan u then ret <- wr ret push (im (s_u x), s_t x) ;; ret <- wr ret (push + 1) (im u, (s_t x + dt)%R) ;;
       Ok (inr (mkstate (im u) [im u1] [repeat true n'] (s_t x + dt)%R dt (S (s_count x)) push ret))
     else Ok (inl (mkstate (im u) [im u1] [repeat true n'] (s_t x + dt)%R dt (S (s_count x)) push ret))) (copies_output n' T s r0) p0) : res (state + state)) =
     copies_turn (if nan u then ret <- wr r p (s_u x, s_t x) ;; ret <- wr ret (p + 1) (u, (s_t x + dt)%R) ;; Ok (inr (mkstate u [u1] [repeat true n] (s_t x + dt)%R dt (S (s_count x)) p ret))
       else Ok (inl (mkstate u [u1] [repeat true n] (s_t x + dt)%R dt (S (s_count x)) p r)))).
  { intros r p. cbv beta iota. destruct (nan u); [|reflexivity]. destruct (wr_cases r p (s_u x, s_t x)) as [[r1 E1]|[w E1]].
    - rewrite E1, (wr_copies _ _ _ _ _ E1 ltac:(assumption)). cbn [bind]. destruct (wr_cases r1 (p + 1) (u, (s_t x + dt)%R)) as [[r2 E2]|[w E2]].
      + rewrite E2, (wr_copies _ _ _ _ _ E2 ltac:(assumption)). reflexivity.
      + rewrite E2, (wr_copies_not _ _ _ _ _ E2). reflexivity.
    - rewrite E1, (wr_copies_not _ _ _ _ _ E1). reflexivity. }
  cbv beta iota in F. split.
  - destruct (Rle_dec _ _); cbn [bind].
    + destruct (wr_cases (s_ret x) (s_push x) (u, (s_t x + dt)%R)) as [[r1 E1]|[w E1]].
      * rewrite E1, (wr_copies _ _ _ _ _ E1 ltac:(assumption)). cbn [bind]. apply F.
      * rewrite E1, (wr_copies_not _ _ _ _ _ E1). reflexivity.
    + apply F.
  - intros x' E. apply bind_ok in E. destruct E as ([r p] & _ & E). destruct (nan u).
    + apply bind_ok in E. destruct E as (r1 & _ & E). apply bind_ok in E. destruct E as (r2 & _ & E). discriminate.
    + injection E as <-. cbn [s_grids s_masks s_u]. eauto.
Qed.
Lemma run_copies : forall fuel x, (exists g0, s_grids x = [g0]) -> s_masks x = [repeat true n] -> length (s_u x) = n ->
  (forall g dt, handed o svd speed fill advance nan ROT dX CFL tf tol m x g dt -> Good g dt) -> run fill' advance' fuel (copies_state n' T s x) = copies_run (run fill advance fuel x).
Proof using HM Hs Hadv Hrate Hlim Hren Hrot Hres Hcon Hnan HV HL.
  induction fuel as [|fuel IH]; intros x [g0 EG] EK Lu HP; cbn [IterModel.run]; cbn [copies_state s_t s_u s_grids s_masks s_dt s_count s_push s_ret]; destruct (Rlt_dec (s_t x) tf) as [Lt|Lt]; try reflexivity.
  1,3: destruct (wr_cases (s_ret x) 99 (s_u x, s_t x)) as [[r1 E1]|[w E1]]; [rewrite E1, (wr_copies _ _ _ _ _ E1 ltac:(assumption))|rewrite E1, (wr_copies_not _ _ _ _ _ E1)]; reflexivity.
  fold (copies_state n' T s x). destruct (turn_copies x g0 EG EK Lu ltac:(intros dt ET; apply HP; apply (handed_now o svd speed fill advance nan ROT dX CFL tf tol m x _ _ _ Lt EK ET eq_refl))) as [-> H]. destruct (turn fill advance x) as [[x'|x']| | |] eqn:E; cbn [copies_turn bind]; try reflexivity.
  destruct (H x' eq_refl) as (G & K & L). apply IH; try assumption.
  intros g dt Hg. apply HP. exact (handed_later o svd speed fill advance nan ROT dX CFL tf tol m x g dt x' Lt E Hg).
Qed.
Lemma iterator_copies fuel (u : grid) : length u = n -> (forall g dt, handed o svd speed fill advance nan ROT dX CFL tf tol m (init [m] u) g dt -> Good g dt) ->
  iterator o svd speed fill' advance' nan ROT dX CFL tf tol [m] fuel (im u) = copies_run (iterator o svd speed fill advance nan ROT dX CFL tf tol [m] fuel u).
Proof using HM Hs Hadv Hrate Hlim Hren Hrot Hres Hcon Hnan HV HL.
  intros Lu HP. unfold iterator. rewrite <- run_copies.
  - assert (E : init [m] (im u) = copies_state n' T s (init [m] u)); [|rewrite E; reflexivity].
    unfold init, copies_state. cbn [s_u s_grids s_masks s_t s_dt s_count s_push s_ret repeat length map]. rewrite copies_length. reflexivity.
  - exists u. reflexivity.
  - cbn [init s_masks repeat length]. rewrite Lu. reflexivity.
  - exact Lu.
  - exact HP.
Qed.
End Sym.
