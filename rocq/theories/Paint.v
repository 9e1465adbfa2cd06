(** Compositional rule for code that fills a buffer: [paints L own val f] means that on every buffer of length [L],
    [f] succeeds, gives each address in [own] its value [val], and leaves the other addresses alone. *)
From Verif Require Import Base.
Open Scope nat_scope.

Definition paints {A} (L : nat) (own : list nat) (val : nat -> A) (f : buf A -> res (buf A)) : Prop :=
  forall b, blen b = L -> exists b', f b = Ok b' /\ blen b' = L /\
    (forall a, In a own -> bdat b' a = Some (val a)) /\ (forall a, ~ In a own -> bdat b' a = bdat b a).

Lemma paints_wr {A} L (val : nat -> A) a v : a < L -> v = val a -> paints L [a] val (fun b => wr b a v).
Proof.
  intros Ha -> b Lb. rewrite wr_ok by lia. eexists. split; [reflexivity|]. cbn. split; [exact Lb|]. split.
  - intros x [-> |[]]. apply upd_same.
  - intros x Hx. apply upd_other. intros ->. apply Hx. auto.
Qed.

Lemma paints_ok {A} L (val : nat -> A) : paints L [] val (fun b => Ok b).
Proof. intros b Lb. exists b. split; [reflexivity|]. split; [exact Lb|]. split; [intros a []|auto]. Qed.

Lemma paints_seq {A} L o1 o2 (val : nat -> A) f g :
  paints L o1 val f -> paints L o2 val g -> paints L (o1 ++ o2) val (fun b => b' <- f b ;; g b').
Proof.
  intros Hf Hg b Lb. destruct (Hf b Lb) as [b1 [E1 [L1 [W1 K1]]]]. destruct (Hg b1 L1) as [b2 [E2 [L2 [W2 K2]]]].
  exists b2. rewrite E1. cbn [bind]. split; [exact E2|]. split; [exact L2|]. split.
  - intros a Ha. destruct (in_dec Nat.eq_dec a o2) as [I|I]; [apply W2; exact I|].
    rewrite K2 by exact I. apply W1. apply in_app_or in Ha. tauto.
  - intros a Ha. rewrite K2, K1; auto; intros I; apply Ha, in_or_app; auto.
Qed.

Lemma paints_bind {A B} L own (val : nat -> A) (x : res B) v f :
  x = Ok v -> paints L own val (f v) -> paints L own val (fun b => y <- x ;; f y b).
Proof. intros -> H. exact H. Qed.

Lemma paints_for {A} L own (val : nat -> A) F : forall n lo,
  (forall i, lo <= i < lo + n -> paints L (own i) val (F i)) ->
  paints L (flat_map own (seq lo n)) val (fun b => for_loop n lo F b).
Proof.
  induction n as [|n IH]; intros lo H; cbn [seq flat_map for_loop]; [apply paints_ok|].
  apply (paints_seq L (own lo)); [apply H; lia|]. apply IH. intros i Hi. apply H. lia.
Qed.

Lemma paints_ext {A} L own own' (val : nat -> A) f g :
  paints L own val f -> (forall b, f b = g b) -> (forall a, In a own <-> In a own') -> paints L own' val g.
Proof.
  intros H E I b Lb. destruct (H b Lb) as [b' [E' [L' [W K]]]]. exists b'. rewrite <- E. split; [exact E'|].
  split; [exact L'|]. split; intros a Ha; [apply W; apply I; exact Ha|apply K; intros C; apply Ha, I, C].
Qed.
