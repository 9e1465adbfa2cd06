(** Common vocabulary of the model: outcomes, memory buffers, counted loops.
    Nothing in this file models a particular C++ function; it fixes how C++
    outcomes are represented. *)
From Coq Require Export List Arith ZArith Lia Bool String.
Export ListNotations.
Open Scope nat_scope.

(** Outcome of a piece of C++.
    [UB]      undefined behaviour (out-of-range access, uninitialised read, ...);
    [Throw]   a C++ exception leaves the function;
    [NoFuel]  the fuel of a fuelled [while] loop ran out (never a normal result). *)
Inductive res (A : Type) : Type :=
| Ok (a : A)
| UB (why : string)
| Throw (why : string)
| NoFuel.
Arguments Ok {A} a.
Arguments UB {A} why.
Arguments Throw {A} why.
Arguments NoFuel {A}.

Definition bind {A B} (x : res A) (f : A -> res B) : res B :=
  match x with Ok a => f a | UB w => UB w | Throw w => Throw w | NoFuel => NoFuel end.
Notation "x <- e ;; f" := (bind e (fun x => f))
  (at level 61, e at next level, right associativity).
Notation "' p <- e ;; f" := (bind e (fun p => f))
  (at level 61, p pattern, e at next level, right associativity).

Definition is_ok {A} (x : res A) : Prop := exists a, x = Ok a.
Definition is_ub {A} (x : res A) : Prop := exists w, x = UB w.

(** A heap-allocated or stack array: length, and per slot [None] (uninitialised)
    or [Some v]. *)
Record buf (A : Type) := mkbuf { blen : nat; bdat : nat -> option A }.
Arguments mkbuf {A} _ _.
Arguments blen {A} _.
Arguments bdat {A} _ _.

(** [new T[n]] : contents indeterminate. *)
Definition balloc {A} (n : nat) : buf A := mkbuf n (fun _ => None).

Definition upd {B} (f : nat -> B) (i : nat) (v : B) : nat -> B :=
  fun j => if Nat.eqb j i then v else f j.

Definition rd {A} (b : buf A) (i : nat) : res A :=
  if Nat.ltb i (blen b)
  then match bdat b i with Some v => Ok v | None => UB "uninitialised read" end
  else UB "out of range read".

Definition wr {A} (b : buf A) (i : nat) (v : A) : res (buf A) :=
  if Nat.ltb i (blen b)
  then Ok (mkbuf (blen b) (upd (bdat b) i (Some v)))
  else UB "out of range write".

(** The same with a signed index, as C++ [int] indices may be negative. *)
Definition rdZ {A} (b : buf A) (i : Z) : res A :=
  if (i <? 0)%Z then UB "out of range read" else rd b (Z.to_nat i).
Definition wrZ {A} (b : buf A) (i : Z) (v : A) : res (buf A) :=
  if (i <? 0)%Z then UB "out of range write" else wr b (Z.to_nat i) v.

(** [for (i = lo; i < lo + n; i++) s = f i s] *)
Fixpoint for_loop {S} (n : nat) (lo : nat) (f : nat -> S -> res S) (s : S) : res S :=
  match n with
  | O => Ok s
  | Datatypes.S m => s' <- f lo s ;; for_loop m (Datatypes.S lo) f s'
  end.

(** ** Facts about the vocabulary *)

Lemma upd_same {B} (f : nat -> B) i v : upd f i v i = v.
Proof. unfold upd. now rewrite Nat.eqb_refl. Qed.
Lemma upd_other {B} (f : nat -> B) i j v : j <> i -> upd f i v j = f j.
Proof. unfold upd. intros H. destruct (Nat.eqb_spec j i); congruence. Qed.

Lemma rd_ok {A} (b : buf A) i v : i < blen b -> bdat b i = Some v -> rd b i = Ok v.
Proof. unfold rd. intros H E. destruct (Nat.ltb_spec i (blen b)); [|lia]. now rewrite E. Qed.
Lemma wr_ok {A} (b : buf A) i v : i < blen b ->
  wr b i v = Ok (mkbuf (blen b) (upd (bdat b) i (Some v))).
Proof. unfold wr. intros H. destruct (Nat.ltb_spec i (blen b)); [reflexivity|lia]. Qed.
Lemma rd_inv {A} (b : buf A) i v : rd b i = Ok v -> i < blen b /\ bdat b i = Some v.
Proof. unfold rd. destruct (Nat.ltb_spec i (blen b)); [|discriminate].
  destruct (bdat b i); [|discriminate]. intros [= ->]. auto. Qed.
Lemma wr_inv {A} (b b' : buf A) i v : wr b i v = Ok b' ->
  i < blen b /\ b' = mkbuf (blen b) (upd (bdat b) i (Some v)).
Proof. unfold wr. destruct (Nat.ltb_spec i (blen b)); [|discriminate]. intros [= <-]. auto. Qed.

Lemma bind_ok {A B} (x : res A) (f : A -> res B) b :
  bind x f = Ok b -> exists a, x = Ok a /\ f a = Ok b.
Proof. destruct x; simpl; try discriminate. eauto. Qed.

(** Invariant rule of a counted loop. *)
Lemma for_loop_inv {S} (P : nat -> S -> Prop) n lo f s :
  P lo s ->
  (forall i s, lo <= i < lo + n -> P i s -> exists s', f i s = Ok s' /\ P (1 + i) s') ->
  exists s', for_loop n lo f s = Ok s' /\ P (lo + n) s'.
Proof.
  revert lo s. induction n as [|n IH]; intros lo s H0 Hs; cbn [for_loop].
  - exists s. rewrite Nat.add_0_r. auto.
  - destruct (Hs lo s) as [s1 [E1 P1]]; [lia|exact H0|].
    rewrite E1. cbn [bind].
    destruct (IH (Datatypes.S lo) s1 P1) as [s' [E' P']].
    + intros i t Hi Ht. apply Hs; [lia|exact Ht].
    + exists s'. split; [exact E'|]. now replace (lo + Datatypes.S n) with (Datatypes.S lo + n) by lia.
Qed.

(** Partial-correctness rule: whatever the loop returns satisfies the invariant. *)
Lemma for_loop_inv_ok {S} (P : nat -> S -> Prop) n lo f s s' :
  for_loop n lo f s = Ok s' ->
  P lo s ->
  (forall i s s1, lo <= i < lo + n -> P i s -> f i s = Ok s1 -> P (1 + i) s1) ->
  P (lo + n) s'.
Proof.
  revert lo s. induction n as [|n IH]; intros lo s E H0 Hs; cbn [for_loop] in E.
  - injection E as <-. now rewrite Nat.add_0_r.
  - apply bind_ok in E. destruct E as [s1 [E1 E2]].
    replace (lo + Datatypes.S n) with (Datatypes.S lo + n) by lia.
    apply (IH (Datatypes.S lo) s1 E2).
    + apply (Hs lo s s1); auto. lia.
    + intros i t t1 Hi. apply Hs. lia.
Qed.

Lemma for_loop_ext {S} n lo (f g : nat -> S -> res S) s :
  (forall i t, lo <= i < lo + n -> f i t = g i t) -> for_loop n lo f s = for_loop n lo g s.
Proof.
  revert lo s. induction n as [|n IH]; intros lo s H; cbn [for_loop]; [reflexivity|].
  rewrite H by lia. destruct (g lo s); cbn [bind]; auto. apply IH. intros. apply H. lia.
Qed.

(** Loop over an explicit list of iterations. *)
Fixpoint fold_res {A S} (f : A -> S -> res S) (l : list A) (s : S) : res S :=
  match l with
  | [] => Ok s
  | a :: l' => s' <- f a s ;; fold_res f l' s'
  end.

Lemma fold_res_inv {A S} (P : list A -> S -> Prop) (f : A -> S -> res S) l : forall s,
  P l s ->
  (forall a l' s, (exists l0, l = l0 ++ a :: l') -> P (a :: l') s -> exists s', f a s = Ok s' /\ P l' s') ->
  exists s', fold_res f l s = Ok s' /\ P [] s'.
Proof.
  assert (G : forall pre l s, P l s ->
    (forall a l' s, (exists l0, pre ++ l = l0 ++ a :: l') -> P (a :: l') s -> exists s', f a s = Ok s' /\ P l' s') ->
    exists s', fold_res f l s = Ok s' /\ P [] s').
  { intros pre l0. revert pre. induction l0 as [|a l0 IH]; intros pre s H0 Hs; cbn [fold_res].
    - exists s; auto.
    - destruct (Hs a l0 s) as [s1 [E1 P1]]; [exists pre; reflexivity|exact H0|].
      rewrite E1. cbn [bind]. apply (IH (pre ++ [a])); [exact P1|].
      intros b l' t [q Hq] Hp. apply Hs; [|exact Hp]. exists q. rewrite <- Hq, <- app_assoc. reflexivity. }
  intros s H0 Hs. apply (G [] l s H0). intros a l' t [q Hq]. apply Hs. exists q. exact Hq.
Qed.

Lemma fold_res_app {A S} (f : A -> S -> res S) l1 l2 s :
  fold_res f (l1 ++ l2) s = (t <- fold_res f l1 s ;; fold_res f l2 t).
Proof. revert s. induction l1 as [|a l1 IH]; intros s; cbn; [reflexivity|].
  destruct (f a s); cbn; auto. Qed.
