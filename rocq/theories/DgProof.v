(** Proofs about kron. *)
From Coq Require Import Reals Lra Lia.
From Verif Require Import Base Options Sum Paint WenoProof DgModel DgSpec.
Import List ListNotations.
Open Scope nat_scope.

Lemma loop_mtx (R C : nat) F G : (forall i b, F i (mkmtx R C b) = (b' <- G i b ;; Ok (mkmtx R C b'))) ->
  forall n lo b, for_loop n lo F (mkmtx R C b) = (b' <- for_loop n lo G b ;; Ok (mkmtx R C b')).
Proof.
  intros H. induction n as [|n IH]; intros lo b; cbn [for_loop]; [reflexivity|]. rewrite H. destruct (G lo b); cbn [bind]; auto.
Qed.

Lemma kron2_ok a b m0 n0 f m1 n1 g : is_mtx a m0 n0 f -> is_mtx b m1 n1 g ->
  exists k, kron2 a b = Ok k /\
    is_mtx k (m0 * m1) (n0 * n1) (fun i j => Rmult (f (i / m1) (j / n1)) (g (i mod m1) (j mod n1))).
Proof.
  intros [Ra [Ca [La Ea]]] [Rb [Cb [Lb Eb]]]. unfold kron2. rewrite Ra, Ca, Rb, Cb. cbv zeta.
  set (RR := m0 * m1). set (C := n0 * n1).
  set (val := fun ad : nat => let i := ad / C in let j := ad mod C in Rmult (f (i / m1) (j / n1)) (g (i mod m1) (j mod n1))).
  set (setb := fun (bf : buf R) i j x => if (Nat.ltb i RR && Nat.ltb j C)%bool then wr bf (i * C + j) x else UB "index out of range"%string).
  set (W := fun i0 i1 j0 j1 (bf : buf R) => x <- mget a i0 j0 ;; y <- mget b i1 j1 ;; setb bf (i0 * m1 + i1) (j0 * n1 + j1) (x * y)%R).
  pose (L3 := fun i0 i1 j0 bf => for_loop n1 0 (fun j1 bf => W i0 i1 j0 j1 bf) bf).
  pose (L2 := fun i0 i1 bf => for_loop n0 0 (fun j0 bf => L3 i0 i1 j0 bf) bf).
  pose (L1 := fun i0 bf => for_loop m1 0 (fun i1 bf => L2 i0 i1 bf) bf).
  pose (L0 := fun bf => for_loop m0 0 (fun i0 bf => L1 i0 bf) bf).
  assert (T : forall i j x bf, mset (mkmtx RR C bf) i j x = (b' <- setb bf i j x ;; Ok (mkmtx RR C b'))).
  { intros i j x bf. unfold mset, setb. cbn [mrows mcols mdat]. destruct (_ && _)%bool; [|reflexivity]. destruct (wr _ _ _); reflexivity. }
  match goal with |- exists k, ?X = Ok k /\ _ => assert (E : X = (b' <- L0 (balloc (RR * C)) ;; Ok (mkmtx RR C b'))) end.
  { apply (loop_mtx RR C _ L1). intros i0 b0. apply (loop_mtx RR C _ (L2 i0)). intros i1 b1.
    apply (loop_mtx RR C _ (L3 i0 i1)). intros j0 b2. apply (loop_mtx RR C _ (W i0 i1 j0)). intros j1 b3.
    unfold W. destruct (mget a i0 j0); cbn [bind]; auto. destruct (mget b i1 j1); cbn [bind]; auto. }
  rewrite E. clear E.
  pose (ad := fun i0 i1 j0 j1 => (i0 * m1 + i1) * C + (j0 * n1 + j1)).
  assert (P : paints (RR * C) (flat_map (fun i0 => flat_map (fun i1 => flat_map (fun j0 => flat_map (fun j1 => [ad i0 i1 j0 j1]) (seq 0 n1)) (seq 0 n0)) (seq 0 m1)) (seq 0 m0)) val L0).
  { apply (paints_for (RR * C) _ val L1). intros i0 H0. apply (paints_for (RR * C) _ val (L2 i0)). intros i1 H1.
    apply (paints_for (RR * C) _ val (L3 i0 i1)). intros j0 H2. apply (paints_for (RR * C) _ val (W i0 i1 j0)). intros j1 H3.
    assert (Hi : i0 * m1 + i1 < RR) by (apply pack_lt; lia). assert (Hj : j0 * n1 + j1 < C) by (apply pack_lt; lia).
    unfold W. apply (paints_bind _ _ _ _ (f i0 j0) (fun x bf => y <- mget b i1 j1 ;; setb bf (i0 * m1 + i1) (j0 * n1 + j1) (x * y)%R)); [apply Ea; lia|].
    apply (paints_bind _ _ _ _ (g i1 j1) (fun y bf => setb bf (i0 * m1 + i1) (j0 * n1 + j1) (f i0 j0 * y)%R)); [apply Eb; lia|].
    unfold setb. rewrite (proj2 (Nat.ltb_lt _ RR)) by exact Hi. rewrite (proj2 (Nat.ltb_lt _ C)) by exact Hj. cbn [andb].
    apply paints_wr; [apply pack_lt; assumption|]. unfold val. cbv zeta.
    destruct (divmod C (i0 * m1 + i1) (j0 * n1 + j1) Hj) as [-> ->].
    destruct (divmod m1 i0 i1) as [-> ->]; [lia|]. destruct (divmod n1 j0 j1) as [-> ->]; [lia|]. reflexivity. }
  destruct (P (balloc (RR * C)) eq_refl) as [bf [E [Lf [Wf _]]]]. rewrite E. cbn [bind]. eexists. split; [reflexivity|].
  split; [reflexivity|]. split; [reflexivity|]. split; [exact Lf|]. intros i j Hi Hj. unfold mget. cbn [mrows mcols mdat].
  rewrite (proj2 (Nat.ltb_lt _ RR)) by exact Hi. rewrite (proj2 (Nat.ltb_lt _ C)) by exact Hj. cbn [andb].
  assert (Hp : i * C + j < RR * C) by (apply pack_lt; assumption).
  assert (bdat bf (i * C + j) = Some (val (i * C + j))) as Hv.
  { assert (m1 <> 0) by (unfold RR in Hi; destruct m1; [rewrite Nat.mul_0_r in Hi; lia|lia]).
    assert (n1 <> 0) by (unfold C in Hj; destruct n1; [rewrite Nat.mul_0_r in Hj; lia|lia]).
    apply Wf. apply flat_in. exists (i / m1). split; [apply Nat.div_lt_upper_bound; [lia|unfold RR in Hi; lia]|].
    apply flat_in. exists (i mod m1). split; [apply Nat.mod_upper_bound; lia|].
    apply flat_in. exists (j / n1). split; [apply Nat.div_lt_upper_bound; [lia|unfold C in Hj; lia]|].
    apply flat_in. exists (j mod n1). split; [apply Nat.mod_upper_bound; lia|]. left. unfold ad.
    rewrite (Nat.mul_comm (i / m1)), <- Nat.div_mod by lia. rewrite (Nat.mul_comm (j / n1)), <- Nat.div_mod by lia. reflexivity. }
  rewrite rd_ok with (v := val (i * C + j)); [|lia|exact Hv]. unfold val. cbv zeta. destruct (divmod C i j Hj) as [-> ->]. reflexivity.
Qed.

(** the product of the whole list: [fs] are the entries of the matrices, last one first *)
Fixpoint rprod (l : list (nat * nat * (nat -> nat -> R))) (acc : nat * nat * (nat -> nat -> R)) : nat * nat * (nat -> nat -> R) :=
  match l with
  | [] => acc
  | (m0, n0, f) :: l' => let '(m1, n1, g) := acc in
      rprod l' (m0 * m1, n0 * n1, fun i j => Rmult (f (i / m1) (j / n1)) (g (i mod m1) (j mod n1)))
  end.
Definition is3 (m : mtx) (d : nat * nat * (nat -> nat -> R)) : Prop := let '(r, c, f) := d in is_mtx m r c f.

Lemma kron_rec_ok : forall l ds b d, l <> [] -> Forall2 is3 l ds -> is3 b d -> exists k, kron_rec b l = Ok k /\ is3 k (rprod ds d).
Proof.
  induction l as [|a l IH]; intros ds b d Hl F Hb; [congruence|]. inversion F as [|x [[m0 n0] f] y ds' Ha F']; subst. destruct d as [[m1 n1] g].
  destruct (kron2_ok a b m0 n0 f m1 n1 g Ha Hb) as [k [E K]]. cbn [kron_rec rprod]. rewrite E. cbn [bind].
  destruct l as [|a' l]; [inversion F'; subst; exists k; split; [reflexivity|exact K]|].
  apply IH; [discriminate|exact F'|exact K].
Qed.

Lemma lex_lt : forall ds is, within ds is -> lex ds is < product ds.
Proof.
  induction ds as [|d ds IH]; intros [|i is] H; cbn in *; try tauto; [lia|]. destruct H as [Hi H]. specialize (IH is H).
  apply pack_lt; assumption.
Qed.

(** appending a matrix in front of an accumulated product *)
Definition prodOf (ms : list (nat * nat * (nat -> nat -> R))) (d : nat * nat * (nat -> nat -> R)) : Prop :=
  let '(r, c, f) := d in
  r = product (map (fun m => fst (fst m)) ms) /\ c = product (map (fun m => snd (fst m)) ms) /\
  forall is js, within (map (fun m => fst (fst m)) ms) is -> within (map (fun m => snd (fst m)) ms) js ->
    f (lex (map (fun m => fst (fst m)) ms) is) (lex (map (fun m => snd (fst m)) ms) js) = entries (map snd ms) is js.

Lemma prodOf_cons m ms d : prodOf ms d -> prodOf (m :: ms) (rprod [m] d).
Proof.
  destruct m as [[m0 n0] f], d as [[m1 n1] g]. intros [-> [-> H]]. cbn [rprod prodOf map fst snd product].
  split; [reflexivity|]. split; [reflexivity|]. intros [|i is] [|j js]; cbn [within]; try tauto. intros [Hi Wi] [Hj Wj].
  cbn [lex entries]. pose proof (lex_lt _ _ Wi) as Li. pose proof (lex_lt _ _ Wj) as Lj.
  destruct (divmod _ i _ Li) as [-> ->]. destruct (divmod _ j _ Lj) as [-> ->]. now rewrite H.
Qed.
Lemma rprod_app l1 l2 d : rprod (l1 ++ l2) d = rprod l2 (rprod l1 d).
Proof. revert d. induction l1 as [|[[m0 n0] f] l1 IH]; intros d; [reflexivity|]. destruct d as [[m1 n1] g]. cbn [app rprod]. apply IH. Qed.
Lemma rprod_prodOf ms : forall l d, prodOf ms d -> prodOf (rev l ++ ms) (rprod l d).
Proof.
  intros l. revert ms. induction l as [|m l IH]; intros ms d H; [exact H|]. cbn [rev]. rewrite <- app_assoc. cbn [app].
  change (m :: l) with ([m] ++ l). rewrite rprod_app. apply IH. apply prodOf_cons. exact H.
Qed.
Lemma prodOf_one r c f : prodOf [(r, c, f)] (r, c, f).
Proof.
  cbn [prodOf map fst snd product]. split; [lia|]. split; [lia|]. intros [|i [|? ?]] [|j [|? ?]]; cbn [within]; try tauto.
  intros [Hi _] [Hj _]. cbn [lex entries product]. rewrite !Nat.mul_1_r, !Nat.add_0_r. ring.
Qed.

Lemma Forall2_rev {A B} (P : A -> B -> Prop) l l' : Forall2 P l l' -> Forall2 P (rev l) (rev l').
Proof. induction 1; cbn [rev]; [constructor|]. apply Forall2_app; [assumption|]. constructor; [assumption|constructor]. Qed.

Lemma kron_ok mats ds : 2 <= length mats -> Forall2 is3 mats ds -> exists k d, kron mats = Ok k /\ is3 k d /\ prodOf ds d.
Proof.
  intros Hl F. unfold kron. apply Forall2_rev in F. rewrite <- (rev_involutive ds). remember (rev ds) as rs.
  assert (Hr : 2 <= length (rev mats)) by (rewrite rev_length; exact Hl).
  destruct (rev mats) as [|b l]; [cbn in Hr; lia|]. inversion F as [|x d y rs' Hb F' E1 E2]; subst.
  destruct (kron_rec_ok l rs' b d) as [k [E K]]; [destruct l; [cbn in Hr; lia|discriminate]|exact F'|exact Hb|].
  exists k, (rprod rs' d). split; [exact E|]. split; [exact K|]. cbn [rev]. apply rprod_prodOf.
  destruct d as [[r c] f]. apply prodOf_one.
Qed.

Lemma full_ok n f : is_mtx (full n f) n n f.
Proof.
  split; [reflexivity|]. split; [reflexivity|]. split; [reflexivity|]. intros i j Hi Hj. unfold mget, full. cbn [mrows mcols mdat].
  rewrite (proj2 (Nat.ltb_lt _ _) Hi), (proj2 (Nat.ltb_lt _ _) Hj). cbn [andb].
  pose proof (pack_lt i j n n Hi Hj). destruct (divmod n i j Hj) as [Hd Hm].
  rewrite rd_ok with (v := f i j); [reflexivity|exact H|]. cbn [bdat]. now rewrite Hd, Hm.
Qed.
