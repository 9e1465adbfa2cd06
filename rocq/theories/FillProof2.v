(** The interface mask on two-dimensional grids. *)
From Coq Require Import Reals ZArith Lra.
From Verif Require Import Base Options Mat3 PhysModel FmmModel LevelSetModel UtilsModel FillModel FmmSpec FmmProof6 FillSpec FillProof.
Import List ListNotations.
Open Scope nat_scope.

Lemma bind_ext {A B} (x : res A) (f g : A -> res B) : (forall a, f a = g a) -> bind x f = bind x g.
Proof. intros H. destruct x; cbn; auto. Qed.

Section TwoD.
Variables (nx ny : nat) (P : nat -> R).
Notation n := (nx * ny).
Notation nb := (nbs [nx; ny]).
Definition iso (c : nat) : Prop := (P c <= 0)%R /\ forall k, In k (nb c) -> (0 < P k)%R.
Definition isob (c : nat) : bool :=
  if Rle_dec (P c) 0 then negb (existsb (fun k => if Rle_dec (P k) 0 then true else false) (nb c)) else false.
Lemma isob_spec c : isob c = true <-> iso c.
Proof.
  unfold isob, iso. destruct (Rle_dec (P c) 0) as [L|L]; [|split; [discriminate|intros [A _]; contradiction]].
  rewrite Bool.negb_true_iff. split.
  - intros H. split; [exact L|]. intros k I. destruct (Rle_dec (P k) 0) as [Q|Q]; [|lra]. exfalso.
    assert (C : existsb (fun k => if Rle_dec (P k) 0 then true else false) (nb c) = true).
    { apply existsb_exists. exists k. split; [exact I|]. destruct (Rle_dec (P k) 0); [reflexivity|contradiction]. }
    congruence.
  - intros [_ H]. apply Bool.not_true_iff_false. intros C. apply existsb_exists in C. destruct C as [k [I C]].
    specialize (H k I). destruct (Rle_dec (P k) 0); [lra|discriminate].
Qed.
Definition T2 (c : nat) : Z := if isob c then (-2)%Z else sign (P c).
(** cell [a] labels cell [c] *)
Definition marks (a c : nat) : Prop :=
  (P a <= 0)%R /\ ((iso a /\ c = a) \/ (~ iso a /\ exists b, In b (nb a) /\ (P a * P b <= 0)%R /\ (c = a \/ c = b))).

Lemma lt_n i j : i < nx -> j < ny -> i * ny + j < n.
Proof. intros H1 H2. apply Nat.lt_le_trans with (i * ny + 1 * ny); [lia|]. rewrite <- Nat.mul_add_distr_r. apply Nat.mul_le_mono_r. lia. Qed.
Lemma size2 : size_ [nx; ny] = n.
Proof. cbn. lia. Qed.
Lemma nb_lt c k : c < n -> In k (nb c) -> k < n /\ In c (nb k).
Proof. intros H I. rewrite <- size2 in *. apply nbs_sym; auto. right. reflexivity. Qed.

Lemma guard_fold {S} (f : nat -> S -> res S) b x l s :
  fold_res f (opt1 b x ++ l) s = (s <- guarded b (f x s) s ;; fold_res f l s).
Proof. unfold opt1, guarded. destruct b; cbn [app fold_res bind]; reflexivity. Qed.
Lemma nonpos_full k : k < n -> nonpos (full n P) k = Ok (if Rle_dec (P k) 0 then true else false).
Proof. intros H. unfold nonpos. rewrite rd_full by exact H. reflexivity. Qed.
Lemma guard_np (b : bool) k : (b = true -> k < n) ->
  guarded b (nonpos (full n P) k) false = Ok (existsb (fun k => if Rle_dec (P k) 0 then true else false) (opt1 b k)).
Proof.
  intros H. unfold guarded, opt1. destruct b; [|reflexivity]. rewrite nonpos_full by auto. cbn. rewrite Bool.orb_false_r. reflexivity.
Qed.

Lemma interface_cell_eq i j m : i < nx -> j < ny ->
  interface_cell (full n P) nx ny i j m =
  (let c := i * ny + j in
   if Rle_dec (P c) 0 then
     if isob c then wr m c (-2)%Z else fold_res (fun b m => update_interface_mask (full n P) c b m) (nb c) m
   else Ok m).
Proof.
  intros Hi Hj. pose proof (lt_n i j Hi Hj) as Hc. unfold interface_cell.
  rewrite nonpos_full by exact Hc. cbn zeta. cbn [bind].
  destruct (Rle_dec (P (i * ny + j)) 0) as [L|L]; [|reflexivity].
  rewrite !guard_np by (intros X; apply Nat.ltb_lt in X; apply lt_n; lia).
  cbn [bind]. unfold isob. destruct (Rle_dec (P (i * ny + j)) 0) as [L'|L']; [clear L'|contradiction].
  unfold nbs. destruct (divmod ny i j Hj) as [-> ->]. rewrite !existsb_app, !Bool.orb_assoc.
  destruct (_ || _)%bool eqn:E; cbn [negb]; [|reflexivity].
  rewrite guard_fold. apply bind_ext. intros m1. rewrite guard_fold. apply bind_ext. intros m2.
  rewrite guard_fold. apply bind_ext. intros m3. rewrite <- (app_nil_r (opt1 (j <? ny - 1) _)), guard_fold.
  destruct (guarded (j <? ny - 1) _ _); reflexivity.
Qed.

Lemma interface_cell_ok i j S m : i < nx -> j < ny -> holds n T2 S m ->
  exists m', interface_cell (full n P) nx ny i j m = Ok m' /\ holds n T2 (fun c => S c \/ marks (i * ny + j) c) m'.
Proof.
  intros Hi Hj H. pose proof (lt_n i j Hi Hj) as Hc. rewrite interface_cell_eq by assumption. cbn zeta.
  set (a := i * ny + j) in *. destruct (Rle_dec (P a) 0) as [L|L].
  - destruct (isob a) eqn:I.
    + destruct (holds_wr n T2 S m a Hc H) as [m1 [E1 H1]]. unfold T2 at 1 in E1. rewrite I in E1. exists m1. split; [exact E1|].
      apply isob_spec in I. revert H1. apply holds_ext. intros c _. unfold marks. split; [tauto|].
      intros [A|[_ [[_ A]|[A _]]]]; tauto.
    + assert (NI : ~ iso a) by (rewrite <- isob_spec; congruence).
      destruct (updates_ok n P T2 a (nb a) Hc) with (S := S) (m := m) as [m1 [E1 H1]].
      * intros b B. apply (nb_lt a b Hc B).
      * intros b B _. unfold T2. rewrite I. split; [reflexivity|]. destruct (isob b) eqn:Ib; [|reflexivity].
        apply isob_spec in Ib. destruct Ib as [_ Ib]. specialize (Ib a (proj2 (nb_lt a b Hc B))). lra.
      * exact H.
      * exists m1. split; [exact E1|]. revert H1. apply holds_ext. intros c _. unfold marks. split; [tauto|].
        intros [A|[_ [[A _]|[_ A]]]]; tauto.
  - exists m. split; [reflexivity|]. revert H. apply holds_ext. intros c _. unfold marks. tauto.
Qed.

Lemma interface_2d_ok : exists m, find_interface_cells (full n P) [nx; ny] = Ok m /\
  holds n T2 (fun c => exists a, a < n /\ marks a c) m.
Proof.
  unfold find_interface_cells.
  destruct (for_loop_inv (fun k m => holds n T2 (fun c => exists a, a < k * ny /\ marks a c) m) nx 0
    (fun i m => for_loop ny 0 (fun j m => interface_cell (full n P) nx ny i j m) m) (zeros n)) as [m [E H]].
  - split; [reflexivity|]. intros c Hc. split; [|reflexivity]. intros [a [A _]]. lia.
  - intros i m Hi H.
    destruct (for_loop_inv (fun k m => holds n T2 (fun c => exists a, a < i * ny + k /\ marks a c) m) ny 0
      (fun j m => interface_cell (full n P) nx ny i j m) m) as [m' [E' H']].
    + revert H. apply holds_ext. intros c _. rewrite Nat.add_0_r. tauto.
    + intros j m1 Hj H1. destruct (interface_cell_ok i j _ m1 ltac:(lia) ltac:(lia) H1) as [m2 [E2 H2]].
      exists m2. split; [exact E2|]. revert H2. apply holds_ext. intros c _. split.
      * intros [[a [A B]]|A]; [exists a; split; [lia|exact B]|]. exists (i * ny + j). split; [lia|exact A].
      * intros [a [A B]]. destruct (Nat.eq_dec a (i * ny + j)) as [->|N]; [tauto|]. left. exists a. split; [lia|exact B].
    + exists m'. split; [exact E'|]. revert H'. apply holds_ext. intros c _.
      replace (i * ny + (0 + ny)) with ((1 + i) * ny) by (cbn; lia). tauto.
  - exists m. split; [exact E|]. exact H.
Qed.

Notation PC := (fun c => P (flat [nx; ny] c)).
Lemma iso_isolated C : inside [nx; ny] C -> (iso (flat [nx; ny] C) <-> isolated [nx; ny] PC C).
Proof.
  intros HC. unfold iso, isolated. split; intros [A B]; (split; [exact A|]).
  - intros C' HC'. apply B. apply adj_nbs; [right; reflexivity|exact HC|]. exists C'. auto.
  - intros k I. apply adj_nbs in I; [|right; reflexivity|exact HC]. destruct I as [C' [I <-]]. apply B. exact I.
Qed.
Lemma adj_sym shape C C' : inside shape C -> adjacent shape C C' -> adjacent shape C' C.
Proof. intros H [A [d B]]. split; [exact H|]. exists d. apply nbr_sym. exact B. Qed.
Lemma marks_C A C : inside [nx; ny] A -> inside [nx; ny] C ->
  (marks (flat [nx; ny] A) (flat [nx; ny] C) <->
   (PC A <= 0)%R /\ ((isolated [nx; ny] PC A /\ C = A) \/
     (~ isolated [nx; ny] PC A /\ exists B, adjacent [nx; ny] A B /\ (PC A * PC B <= 0)%R /\ (C = A \/ C = B)))).
Proof.
  intros HA HC. unfold marks. rewrite (iso_isolated A HA). split.
  - intros [L [[I E]|[I [b [J [M E]]]]]]; (split; [exact L|]).
    + left. split; [exact I|]. apply (flat_inj [nx; ny]); assumption.
    + right. split; [exact I|]. apply adj_nbs in J; [|right; reflexivity|exact HA]. destruct J as [B [J <-]]. exists B.
      split; [exact J|]. split; [exact M|]. destruct E as [E|E]; [left|right]; apply (flat_inj [nx; ny]); auto. apply J.
  - intros [L [[I E]|[I [B [J [M E]]]]]]; (split; [exact L|]).
    + left. split; [exact I|congruence].
    + right. split; [exact I|]. exists (flat [nx; ny] B). split; [apply adj_nbs; [right; reflexivity|exact HA|]; exists B; auto|].
      split; [exact M|]. destruct E as [->| ->]; auto.
Qed.

Lemma interface_2d_labels :
  exists m, find_interface_cells (full n P) [nx; ny] = Ok m /\ blen m = n /\
    forall c, inside [nx; ny] c -> exists z, rd m (flat [nx; ny] c) = Ok z /\ label_2d [nx; ny] PC c z.
Proof.
  destruct interface_2d_ok as [m [E [L H]]]. exists m. split; [exact E|]. split; [exact L|]. intros C HC.
  set (c := flat [nx; ny] C) in *.
  assert (Hc : c < n) by (rewrite <- size2; apply flat_lt; exact HC).
  destruct (H c Hc) as [H1 H2].
  assert (Q : (exists a, a < n /\ marks a c) <-> exists A, inside [nx; ny] A /\ marks (flat [nx; ny] A) c).
  { split.
    - intros [a [I J]]. rewrite <- size2 in I. destruct (flat_surj [nx; ny] a I) as [A [K <-]]. exists A. auto.
    - intros [A [I J]]. exists (flat [nx; ny] A). split; [|exact J]. rewrite <- size2. apply flat_lt. exact I. }
  rewrite Q in H1, H2. clear Q.
  assert (W : forall z, bdat m c = Some z -> rd m c = Ok z) by (intros; apply rd_ok; [lia|assumption]).
  assert (T : forall z, T2 c = z -> (exists A, inside [nx; ny] A /\ marks (flat [nx; ny] A) c) -> rd m c = Ok z)
    by (intros z <- X; apply W; auto).
  assert (Z : ~ (exists A, inside [nx; ny] A /\ marks (flat [nx; ny] A) c) -> rd m c = Ok 0%Z) by (intros X; apply W; auto).
  unfold T2 in T. unfold label_2d. fold c.
  destruct (Rle_dec (P c) 0) as [S|S].
  - destruct (isob c) eqn:I.
    + exists (-2)%Z. apply isob_spec in I. assert (I' := I). apply (iso_isolated C HC) in I'. split.
      * apply (T _ eq_refl). exists C. split; [exact HC|]. unfold marks. fold c. tauto.
      * repeat split; try tauto; intros; lra.
    + assert (NI : ~ isolated [nx; ny] PC C) by (rewrite <- (iso_isolated C HC); fold c; rewrite <- isob_spec; congruence).
      assert (M : (exists A, inside [nx; ny] A /\ marks (flat [nx; ny] A) c) <->
                  exists C', adjacent [nx; ny] C C' /\ (PC C * PC C' <= 0)%R).
      { split.
        - intros [A [HA X]]. unfold c in X. apply marks_C in X; [|assumption|assumption].
          destruct X as [X [[Y Y']|[Y [B [J [K [->| ->]]]]]]].
          + subst A. contradiction.
          + exists B. auto.
          + exists A. split; [apply adj_sym; assumption|]. rewrite Rmult_comm. exact K.
        - intros [B [J K]]. exists C. split; [exact HC|]. unfold c. apply marks_C; [assumption|assumption|].
          split; [exact S|]. right. split; [exact NI|]. exists B. auto. }
      pose proof (fun z E D => T z E (proj2 M D)) as T'. pose proof (fun D => Z (fun X => D (proj1 M X))) as Z'. clear T Z. rename T' into T. rename Z' into Z. rewrite sign_eq in T. destruct (Rle_dec (P c) 0); [|contradiction].
      destruct (Rlt_dec 0 1); [|lra].
      destruct (isob c); [discriminate|].
      assert (D : (exists C', adjacent [nx; ny] C C' /\ (PC C * PC C' <= 0)%R) \/ ~ (exists C', adjacent [nx; ny] C C' /\ (PC C * PC C' <= 0)%R))
        by apply Classical_Prop.classic.
      destruct D as [D|D].
      * exists (-1)%Z. split; [apply (T _ eq_refl D)|]. fold c in D. repeat split; try tauto; intros; lra.
      * exists 0%Z. split; [apply (Z D)|]. fold c in D. repeat split; try tauto; intros; lra.
  - assert (I : isob c = false) by (unfold isob; destruct (Rle_dec (P c) 0); [contradiction|reflexivity]).
    assert (NI : ~ isolated [nx; ny] PC C) by (intros [A _]; contradiction).
    assert (M : (exists A, inside [nx; ny] A /\ marks (flat [nx; ny] A) c) <->
                exists C', adjacent [nx; ny] C C' /\ (PC C' <= 0)%R /\ ~ isolated [nx; ny] PC C').
    { split.
      - intros [A [HA X]]. unfold c in X. apply marks_C in X; [|assumption|assumption].
        destruct X as [X [[Y Y']|[Y [B [J [K [->| ->]]]]]]].
        + subst A. contradiction.
        + contradiction.
        + exists A. split; [apply adj_sym; assumption|]. auto.
      - intros [A [J [K Y]]]. exists A. split; [apply J|]. unfold c. apply marks_C; [apply J|exact HC|].
        split; [exact K|]. right. split; [exact Y|]. exists C. split; [apply adj_sym; [exact HC|exact J]|]. split; [|auto].
        fold c. apply Rnot_le_lt in S. nra. }
    pose proof (fun z E D => T z E (proj2 M D)) as T'. pose proof (fun D => Z (fun X => D (proj1 M X))) as Z'. clear T Z. rename T' into T. rename Z' into Z. rewrite I, sign_eq in T. destruct (Rle_dec (P c) 0); [contradiction|].
    assert (D : (exists C', adjacent [nx; ny] C C' /\ (PC C' <= 0)%R /\ ~ isolated [nx; ny] PC C') \/
              ~ (exists C', adjacent [nx; ny] C C' /\ (PC C' <= 0)%R /\ ~ isolated [nx; ny] PC C')) by apply Classical_Prop.classic.
    destruct D as [D|D].
    + exists 1%Z. split; [apply (T _ eq_refl D)|]. repeat split; try tauto; intros; lra.
    + exists 0%Z. split; [apply (Z D)|]. repeat split; try tauto; intros; lra.
Qed.
End TwoD.
