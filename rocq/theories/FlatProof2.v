(** A run of one material whose cells are all repeated k times; runs depend on the wave speeds and cell sizes through the rates. *)
From Coq Require Import Reals Lia Lra ZArith FunctionalExtensionality.
From Verif Require Import Base Options Mat3 PhysModel UtilsModel IterModel MirrorProof4.
Import List ListNotations.
Open Scope nat_scope.

(** every element k times in a row: the 2-D field with k cells along y that equals g along x *)
Definition along_y {A} (k : nat) (g : list A) : list A := flat_map (fun q => repeat q k) g.
Lemma along_length {A} k (g : list A) : length (along_y k g) = length g * k.
Proof. induction g as [|q g IH]; [reflexivity|]. unfold along_y in *. cbn [flat_map length]. rewrite app_length, repeat_length, IH. lia. Qed.
Lemma along_nth {A} k (g : list A) (d : A) : forall a b, b < k -> nth (a * k + b) (along_y k g) d = nth a g d.
Proof.
  induction g as [|q g IH]; intros a b Hb; [cbn [along_y flat_map]; destruct (a * k + b), a; reflexivity|]. unfold along_y in *. cbn [flat_map]. destruct a as [|a].
  - rewrite app_nth1 by (rewrite repeat_length; lia). cbn [Nat.mul Nat.add nth]. rewrite nth_indep with (d' := q) by (rewrite repeat_length; exact Hb). apply nth_repeat.
  - rewrite app_nth2 by (rewrite repeat_length; lia). rewrite repeat_length. replace (S a * k + b - k) with (a * k + b) by lia. cbn [nth]. apply IH, Hb.
Qed.
(** the same as the copies of MirrorProof4 *)
Definition column (k c : nat) : nat := c / k.
Definition unchanged (c : nat) (q : vec) : vec := q.
Lemma along_copies k (g : grid) : copies (length g * k) unchanged (column k) g = along_y k g.
Proof.
  apply nth_ext with (d := fun _ => 0%R) (d' := fun _ => 0%R); [rewrite copies_length, along_length; reflexivity|]. rewrite copies_length. intros c Hc. rewrite copies_nth by exact Hc. unfold column, unchanged.
  assert (1 <= k) by nia. pose proof (Nat.mod_upper_bound c k ltac:(lia)) as B. rewrite <- (along_nth k g (fun _ => 0%R) (c / k) (c mod k) B). f_equal. rewrite Nat.mul_comm. symmetry. apply Nat.div_mod. lia.
Qed.
Lemma column_covers n k : 1 <= k -> covers n (n * k) (column k).
Proof.
  intros Hk. split; unfold column.
  - intros c Hc. apply Nat.div_lt_upper_bound; lia.
  - intros c Hc. exists (c * k). split; [nia|apply Nat.div_mul; lia].
Qed.

Section Rates.
Variable o : options.
Variable svd : mat3 -> vec3 * mat3.
Variables speed speed' : vec -> nat -> matpar -> option R.
Variable fill : list grid -> list (list bool) -> grid -> R -> res (grid * list grid * list (list bool)).
Variable advance : matpar -> grid -> list bool -> R -> res grid.
Variable nan : grid -> bool.
Variable ROT : bool.
Variables (dX dX' : list R) (CFL tf tol : R) (MPs : list matpar).
Hypothesis Hrate : forall q m, rate speed' dX' q m = rate speed dX q m.
Lemma iterator_rate fuel u : iterator o svd speed' fill advance nan ROT dX' CFL tf tol MPs fuel u = iterator o svd speed fill advance nan ROT dX CFL tf tol MPs fuel u.
Proof using Hrate.
  assert (E : rate speed' dX' = rate speed dX) by (apply functional_extensionality; intros q; apply functional_extensionality; intros m; apply Hrate).
  assert (T : forall s, turn o svd speed' fill advance nan ROT dX' CFL tf tol MPs s = turn o svd speed fill advance nan ROT dX CFL tf tol MPs s).
  { intros s. unfold turn, timestep, max_rate. rewrite E. reflexivity. }
  unfold iterator. generalize (init MPs u). induction fuel as [|fuel IH]; intros s; cbn [run]; [reflexivity|]. rewrite T. destruct (Rlt_dec _ _); [|reflexivity].
  destruct (turn _ _ _ _ _ _ _ _ _ _ _ _ s) as [[s'|s']| | |]; cbn [bind]; [apply IH|reflexivity..].
Qed.
Lemma handed_rate m x g dt : RunProof2.handed o svd speed fill advance nan ROT dX CFL tf tol m x g dt -> RunProof2.handed o svd speed' fill advance nan ROT dX' CFL tf tol m x g dt.
Proof using Hrate.
  assert (E : rate speed dX = rate speed' dX') by (apply functional_extensionality; intros q; apply functional_extensionality; intros q'; symmetry; apply Hrate).
  induction 1 as [x g dt k Lt EK ET Eg|x g dt x' Lt ET _ IH].
  - apply (RunProof2.handed_now _ _ _ _ _ _ _ _ _ _ _ _ x g dt k); try assumption. rewrite <- ET. unfold timestep, max_rate. rewrite E. reflexivity.
  - apply (RunProof2.handed_later _ _ _ _ _ _ _ _ _ _ _ _ x g dt x'); try assumption. rewrite <- ET. unfold turn, timestep, max_rate. rewrite E. reflexivity.
Qed.
End Rates.
