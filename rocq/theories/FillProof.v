(** Neighbours by index, and the interface mask. *)
From Coq Require Import Reals ZArith Lra.
From Verif Require Import Base Options Mat3 PhysModel FmmModel LevelSetModel UtilsModel FillModel FmmSpec FmmProof6 FillSpec.
Import List ListNotations.
Open Scope nat_scope.

(** ** neighbours in the order left, right, lower, upper *)
Definition opt1 (b : bool) (x : nat) : list nat := if b then [x] else [].
Definition nbs (nX : list nat) (c : nat) : list nat :=
  match nX with
  | [nx] => opt1 (Nat.ltb 0 c) (c - 1) ++ opt1 (Nat.ltb c (nx - 1)) (c + 1)
  | [nx; ny] =>
    let i := c / ny in let j := c mod ny in
    opt1 (Nat.ltb 0 i) ((i - 1) * ny + j) ++ opt1 (Nat.ltb i (nx - 1)) ((i + 1) * ny + j) ++
    opt1 (Nat.ltb 0 j) (i * ny + (j - 1)) ++ opt1 (Nat.ltb j (ny - 1)) (i * ny + (j + 1))
  | _ => []
  end.
Definition dim12 (nX : list nat) : Prop := List.length nX = 1 \/ List.length nX = 2.

Lemma in_opt1 b x y : In y (opt1 b x) <-> b = true /\ y = x.
Proof. unfold opt1. destruct b; cbn; split; intros H; intuition congruence. Qed.
Lemma divmod ny i j : j < ny -> (i * ny + j) / ny = i /\ (i * ny + j) mod ny = j.
Proof.
  intros H. split.
  - rewrite Nat.div_add_l by lia. rewrite Nat.div_small by lia. lia.
  - rewrite Nat.add_comm, Nat.mod_add by lia. apply Nat.mod_small. lia.
Qed.
Lemma nbs2 nx ny i j : j < ny -> forall k, In k (nbs [nx; ny] (i * ny + j)) <->
  (0 < i /\ k = (i - 1) * ny + j) \/ (i < nx - 1 /\ k = (i + 1) * ny + j) \/
  (0 < j /\ k = i * ny + (j - 1)) \/ (j < ny - 1 /\ k = i * ny + (j + 1)).
Proof.
  intros H k. unfold nbs. destruct (divmod ny i j H) as [-> ->]. rewrite !in_app_iff, !in_opt1, !Nat.ltb_lt. tauto.
Qed.
Lemma nbs1 nx c : forall k, In k (nbs [nx] c) <-> (0 < c /\ k = c - 1) \/ (c < nx - 1 /\ k = c + 1).
Proof. intros k. unfold nbs. rewrite !in_app_iff, !in_opt1, !Nat.ltb_lt. tauto. Qed.

Lemma inside1 nx C : inside [nx] C -> exists x, C = [x] /\ x < nx.
Proof. destruct C as [|x [|y C]]; cbn; try tauto. intros H. exists x. tauto. Qed.
Lemma inside2 nx ny C : inside [nx; ny] C -> exists i j, C = [i; j] /\ i < nx /\ j < ny.
Proof. destruct C as [|i [|j [|k C]]]; cbn; try tauto. intros H. exists i, j. tauto. Qed.

Lemma next1 d x C : next d [x] C -> C = [S x].
Proof. inversion 1; subst; auto. inversion H4. Qed.
Lemma next1r d x C : next d C [x] -> exists y, x = S y /\ C = [y].
Proof. inversion 1; subst; eauto. inversion H3. Qed.
Lemma next2 d i j C : next d [i; j] C -> C = [S i; j] \/ C = [i; S j].
Proof. inversion 1; subst; auto. apply next1 in H4. subst. auto. Qed.
Lemma next2r d i j C : next d C [i; j] -> (exists y, i = S y /\ C = [y; j]) \/ (exists y, j = S y /\ C = [i; y]).
Proof. inversion 1; subst; eauto. apply next1r in H3. destruct H3 as [y [-> ->]]. eauto. Qed.

Lemma adj_nbs nX C k : dim12 nX -> inside nX C ->
  (In k (nbs nX (flat nX C)) <-> exists C', adjacent nX C C' /\ flat nX C' = k).
Proof.
  intros [H|H] HC.
  - destruct nX as [|nx [|? ?]]; try discriminate H. destruct (inside1 _ _ HC) as [x [-> Hx]].
    replace (flat [nx] [x]) with x by (cbn; lia). rewrite nbs1. split.
    + intros [[A ->]|[A ->]].
      * exists [x - 1]. split; [split; [cbn; lia|]|cbn; lia]. exists 0. right. replace x with (S (x - 1)) at 2 by lia. constructor.
      * exists [x + 1]. split; [split; [cbn; lia|]|cbn; lia]. exists 0. left. replace (x + 1) with (S x) by lia. constructor.
    + intros [C' [[I [d [A|A]]] <-]].
      * apply next1 in A. subst C'. cbn in *. lia.
      * apply next1r in A. destruct A as [y [-> ->]]. cbn in *. lia.
  - destruct nX as [|nx [|ny [|? ?]]]; try discriminate H. destruct (inside2 _ _ _ HC) as [i [j [-> [Hi Hj]]]].
    replace (flat [nx; ny] [i; j]) with (i * ny + j) by (cbn; lia). rewrite nbs2 by exact Hj. split.
    + intros [[A ->]|[[A ->]|[[A ->]|[A ->]]]].
      * exists [i - 1; j]. split; [split; [cbn; lia|]|cbn; lia]. exists 0. right. replace i with (S (i - 1)) at 2 by lia. constructor.
      * exists [i + 1; j]. split; [split; [cbn; lia|]|cbn; lia]. exists 0. left. replace (i + 1) with (S i) by lia. constructor.
      * exists [i; j - 1]. split; [split; [cbn; lia|]|cbn; lia]. exists 1. right. constructor. replace j with (S (j - 1)) at 2 by lia. constructor.
      * exists [i; j + 1]. split; [split; [cbn; lia|]|cbn; lia]. exists 1. left. constructor. replace (j + 1) with (S j) by lia. constructor.
    + intros [C' [[I [d [A|A]]] <-]].
      * apply next2 in A. destruct A as [->| ->]; cbn in I; destruct I as [I1 [I2 _]].
        -- right. left. split; [lia|]. cbn. lia.
        -- right. right. right. split; [lia|]. cbn. lia.
      * apply next2r in A. destruct A as [[y [-> ->]]|[y [-> ->]]]; cbn in I; destruct I as [I1 [I2 _]].
        -- left. split; [lia|]. cbn. replace (y - 0) with y by lia. lia.
        -- right. right. left. split; [lia|]. cbn. lia.
Qed.
Lemma nbr_sym d c c' : nbr d c c' -> nbr d c' c.
Proof. unfold nbr. tauto. Qed.
Lemma nbs_sym nX c c' : dim12 nX -> c < size_ nX -> In c' (nbs nX c) -> c' < size_ nX /\ In c (nbs nX c').
Proof.
  intros D H I. destruct (flat_surj nX c H) as [C [HC <-]]. apply (adj_nbs nX C c' D HC) in I.
  destruct I as [C' [[I [d A]] <-]]. split; [apply flat_lt; exact I|]. apply (adj_nbs nX C' _ D I).
  exists C. split; [|reflexivity]. split; [exact HC|]. exists d. apply nbr_sym. exact A.
Qed.

(** ** fields *)
Definition full {A} (n : nat) (f : nat -> A) : buf A := mkbuf n (fun i => Some (f i)).
Lemma rd_full {A} n (f : nat -> A) i : i < n -> rd (full n f) i = Ok (f i).
Proof. intros H. apply rd_ok; [exact H|reflexivity]. Qed.

(** [m] holds [T] in the cells of [S] and 0 elsewhere *)
Definition holds (n : nat) (T : nat -> Z) (S : nat -> Prop) (m : buf Z) : Prop :=
  blen m = n /\ forall c, c < n -> (S c -> bdat m c = Some (T c)) /\ (~ S c -> bdat m c = Some 0%Z).
Lemma holds_ext n T S S' m : (forall c, c < n -> (S c <-> S' c)) -> holds n T S m -> holds n T S' m.
Proof. intros E [A B]. split; [exact A|]. intros c Hc. destruct (B c Hc) as [B1 B2]. specialize (E c Hc). tauto. Qed.
Lemma holds_wr n T S m c : c < n -> holds n T S m -> exists m', wr m c (T c) = Ok m' /\ holds n T (fun k => S k \/ k = c) m'.
Proof.
  intros Hc [A B]. rewrite wr_ok by (rewrite A; exact Hc). eexists. split; [reflexivity|]. split; [exact A|].
  intros k Hk. cbn. unfold upd. destruct (Nat.eqb_spec k c) as [->|N]; [tauto|]. specialize (B k Hk). tauto.
Qed.

Section Mask.
Variables (n : nat) (P : nat -> R) (T : nat -> Z).
Lemma update_ok S m a b : a < n -> b < n -> holds n T S m ->
  ((P a * P b <= 0)%R -> sign (P a) = T a /\ sign (P b) = T b) ->
  exists m', update_interface_mask (full n P) a b m = Ok m' /\
    holds n T (fun k => S k \/ ((P a * P b <= 0)%R /\ (k = a \/ k = b))) m'.
Proof.
  intros Ha Hb H HT. unfold update_interface_mask. rewrite !rd_full by assumption. cbn [bind].
  destruct (Rle_dec (P a * P b) 0) as [L|L].
  - destruct (HT L) as [-> ->]. destruct (holds_wr n T S m a Ha H) as [m1 [E1 H1]]. rewrite E1. cbn [bind].
    destruct (holds_wr n T _ m1 b Hb H1) as [m2 [E2 H2]]. exists m2. split; [exact E2|].
    apply (holds_ext _ _ _ _ _ (fun c Hc => iff_refl _)) in H2. revert H2. apply holds_ext. intros c _. tauto.
  - exists m. split; [reflexivity|]. revert H. apply holds_ext. intros c _. tauto.
Qed.
(** a cell against a list of neighbours *)
Lemma updates_ok a l : a < n -> (forall b, In b l -> b < n) ->
  (forall b, In b l -> (P a * P b <= 0)%R -> sign (P a) = T a /\ sign (P b) = T b) ->
  forall S m, holds n T S m ->
  exists m', fold_res (fun b m => update_interface_mask (full n P) a b m) l m = Ok m' /\
    holds n T (fun k => S k \/ exists b, In b l /\ (P a * P b <= 0)%R /\ (k = a \/ k = b)) m'.
Proof.
  intros Ha. induction l as [|b l IH]; intros Hl HT S m H; cbn [fold_res].
  - exists m. split; [reflexivity|]. revert H. apply holds_ext. intros c _. split; [tauto|]. intros [A|[b [[] _]]]. exact A.
  - destruct (update_ok S m a b Ha (Hl b (or_introl eq_refl)) H (HT b (or_introl eq_refl))) as [m1 [E1 H1]].
    rewrite E1. cbn [bind].
    destruct (IH (fun b' I => Hl b' (or_intror I)) (fun b' I => HT b' (or_intror I)) _ m1 H1) as [m2 [E2 H2]].
    exists m2. split; [exact E2|]. revert H2. apply holds_ext. intros c _. split.
    + intros [[A|[A B]]|[b' [A B]]]; [tauto| |]; right; [exists b|exists b']; cbn; tauto.
    + intros [A|[b' [[->|A] B]]]; [tauto|tauto|]. right. exists b'. tauto.
Qed.
End Mask.

(** ** one dimension *)
Lemma interface_1d_ok nx (P : nat -> R) T :
  (forall i, i + 1 < nx -> (P i * P (i + 1)%nat <= 0)%R -> sign (P i) = T i /\ sign (P (i + 1)) = T (i + 1)) ->
  exists m, interface_1d (full nx P) nx (zeros nx) = Ok m /\
    holds nx T (fun k => exists i, i + 1 < nx /\ (P i * P (i + 1)%nat <= 0)%R /\ (k = i \/ k = i + 1)) m.
Proof.
  intros HT. unfold interface_1d.
  destruct (for_loop_inv (fun k m => holds nx T (fun c => exists i, i < k /\ i + 1 < nx /\ (P i * P (i + 1)%nat <= 0)%R /\ (c = i \/ c = i + 1)) m)
    (nx - 1) 0 (fun i m => update_interface_mask (full nx P) i (i + 1) m) (zeros nx)) as [m [E H]].
  - split; [reflexivity|]. intros c Hc. split; [|reflexivity]. intros [i [A _]]. lia.
  - intros i m Hi H. destruct (update_ok nx P T _ m i (i + 1) ltac:(lia) ltac:(lia) H (HT i ltac:(lia))) as [m' [E' H']].
    exists m'. split; [exact E'|]. revert H'. apply holds_ext. intros c _. split.
    + intros [[k [A B]]|B]; [exists k; split; [lia|exact B]|]. exists i. split; [lia|]. split; [lia|exact B].
    + intros [k [A B]]. destruct (Nat.eq_dec k i) as [->|N]; [tauto|]. left. exists k. split; [lia|exact B].
  - exists m. split; [exact E|]. revert H. apply holds_ext. intros c _. split.
    + intros [i [A B]]. exists i. exact B.
    + intros [i B]. exists i. split; [lia|exact B].
Qed.

Lemma sign_eq x : sign x = if Rle_dec x 0 then (-1)%Z else 1%Z.
Proof. reflexivity. Qed.

Theorem interface_1d_labels nx (P : nat -> R) :
  exists m, find_interface_cells (full nx P) [nx] = Ok m /\ blen m = nx /\
    forall c, inside [nx] c -> exists z, rd m (flat [nx] c) = Ok z /\ label_1d [nx] (fun c => P (flat [nx] c)) c z.
Proof.
  destruct (interface_1d_ok nx P (fun i => sign (P i))) as [m [E [L H]]]; [auto|].
  exists m. split; [exact E|]. split; [exact L|]. intros c Hc. destruct (inside1 _ _ Hc) as [x [-> Hx]].
  assert (F : flat [nx] [x] = x) by (cbn; lia).
  assert (M : (exists c', adjacent [nx] [x] c' /\ (P (flat [nx] [x]) * P (flat [nx] c') <= 0)%R) <->
              (exists i, i + 1 < nx /\ (P i * P (i + 1)%nat <= 0)%R /\ (x = i \/ x = i + 1))).
  { split.
    - intros [c' [A B]]. assert (I : In (flat [nx] c') (nbs [nx] (flat [nx] [x]))).
      { apply adj_nbs; [left; reflexivity|exact Hc|]. exists c'. auto. }
      rewrite F in *. apply nbs1 in I. destruct I as [[I J]|[I J]]; rewrite J in B.
      + exists (x - 1). replace (x - 1 + 1) with x by lia. rewrite Rmult_comm. split; [lia|]. split; [exact B|lia].
      + exists x. split; [lia|]. split; [exact B|lia].
    - intros [i [A [B [->| ->]]]].
      + assert (I : In (i + 1) (nbs [nx] (flat [nx] [i]))) by (rewrite F; apply nbs1; lia).
        apply adj_nbs in I; [|left; reflexivity|exact Hc]. destruct I as [c' [I J]]. exists c'. split; [exact I|]. rewrite J, F. exact B.
      + assert (I : In i (nbs [nx] (flat [nx] [i + 1]))) by (rewrite F; apply nbs1; lia).
        apply adj_nbs in I; [|left; reflexivity|exact Hc]. destruct I as [c' [I J]]. exists c'. split; [exact I|]. rewrite J, F, Rmult_comm. exact B. }
  destruct (H x Hx) as [H1 H2]. rewrite F.
  destruct (Rle_dec (P x) 0) as [S|S].
  - assert (D : exists z, bdat m x = Some z) by (destruct (bdat m x) eqn:E'; [eauto|]; exfalso;
      assert (~ exists i, i + 1 < nx /\ (P i * P (i + 1)%nat <= 0)%R /\ (x = i \/ x = i + 1)) by (intros Q; specialize (H1 Q); discriminate);
      specialize (H2 H0); discriminate).
    destruct D as [z Ez]. exists z. split; [apply rd_ok; [lia|exact Ez]|]. unfold label_1d. rewrite M, F. rewrite Ez in *.
    split; [intros; lra|]. split.
    + intros Q _. specialize (H1 Q). injection H1 as ->. rewrite sign_eq. destruct (Rle_dec (P x) 0); [reflexivity|tauto].
    + intros Q. specialize (H2 Q). congruence.
  - assert (D : exists z, bdat m x = Some z) by (destruct (bdat m x) eqn:E'; [eauto|]; exfalso;
      assert (~ exists i, i + 1 < nx /\ (P i * P (i + 1)%nat <= 0)%R /\ (x = i \/ x = i + 1)) by (intros Q; specialize (H1 Q); discriminate);
      specialize (H2 H0); discriminate).
    destruct D as [z Ez]. exists z. split; [apply rd_ok; [lia|exact Ez]|]. unfold label_1d. rewrite M, F. rewrite Ez in *.
    split; [|split].
    + intros Q _. specialize (H1 Q). injection H1 as ->. rewrite sign_eq. destruct (Rle_dec (P x) 0); [tauto|reflexivity].
    + intros; lra.
    + intros Q. specialize (H2 Q). congruence.
Qed.
