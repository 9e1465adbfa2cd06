(** Grid geometry used by the fast marching method: the neighbour relation that [_getN] computes. *)
From Verif Require Import Base FmmModel.
Open Scope nat_scope.

(** neighbour of cell [i] in dimension [d], direction [j], if it is inside the grid *)
Definition nb (shape : list nat) (i d : nat) (j : Z) : option nat :=
  let newc := (Z.of_nat (coord shape i d) + j)%Z in
  if ((newc >=? Z.of_nat (nth d shape 0%nat)) || (newc <? 0%Z))%Z then None
  else Some (Z.to_nat (Z.of_nat i + j * Z.of_nat (shift_ shape d))).

Lemma div_step i P : 0 < P -> (i + P) / P = i / P + 1.
Proof. intros H. replace (i + P) with (i + 1 * P) by lia. rewrite Nat.div_add by lia. reflexivity. Qed.

Lemma div_same q P r : r < P -> (q * P + r) / P = q.
Proof. intros H. rewrite Nat.div_add_l by lia. rewrite Nat.div_small by lia. lia. Qed.

Lemma sub_mod i P : 0 < P -> i - i / P * P = i mod P.
Proof. intros H. rewrite Nat.mod_eq by lia. f_equal. apply Nat.mul_comm. Qed.

Lemma move_gen s : forall i d (j : Z), (j = 1 \/ j = -1)%Z ->
  i < size_ s -> d < List.length s ->
  (0 <= Z.of_nat (coord s i d) + j < Z.of_nat (nth d s 0%nat))%Z ->
  exists i', Z.of_nat i' = (Z.of_nat i + j * Z.of_nat (shift_ s d))%Z /\ i' < size_ s /\
    Z.of_nat (coord s i' d) = (Z.of_nat (coord s i d) + j)%Z.
Proof.
  unfold coord, shift_, size_.
  induction s as [|n t IH]; intros i d j Hj Hi Hd Hc; cbn [List.length] in Hd; [lia|].
  cbn [shifts setIndex fold_right nth] in *. set (P := fold_right Nat.mul 1 t) in *.
  assert (HP : 0 < P) by (destruct P; lia).
  pose proof (Nat.div_mod_eq i P) as DM. pose proof (Nat.mod_upper_bound i P ltac:(lia)) as MB.
  set (q := i / P) in *. set (r := i mod P) in *.
  assert (Hqn : q < n) by (apply Nat.div_lt_upper_bound; lia).
  destruct d as [|d].
  - cbn [nth] in *.
    assert (E : exists q', Z.of_nat q' = (Z.of_nat q + j)%Z).
    { exists (Z.to_nat (Z.of_nat q + j)). lia. }
    destruct E as [q' Eq']. exists (q' * P + r). split; [nia|]. split.
    + assert (q' < n) by lia. nia.
    + rewrite div_same by lia. lia.
  - cbn [nth] in *. replace (i - q * P) with r in Hc by lia.
    destruct (IH r d j Hj MB ltac:(lia) Hc) as [r' [E1 [E2 E3]]].
    exists (q * P + r'). split; [nia|]. split; [nia|].
    rewrite div_same by lia. replace (q * P + r' - q * P) with r' by lia.
    replace (i - q * P) with r by lia. exact E3.
Qed.

Lemma coord_lt s : forall i d, i < size_ s -> d < List.length s -> coord s i d < nth d s 0.
Proof.
  unfold coord, size_. induction s as [|n t IH]; intros i d Hi Hd; cbn [List.length] in Hd; [lia|].
  cbn [shifts setIndex fold_right] in *. set (P := fold_right Nat.mul 1 t) in *.
  assert (HP : 0 < P) by (destruct P; lia).
  destruct d as [|d]; cbn [nth].
  - apply Nat.div_lt_upper_bound; lia.
  - rewrite sub_mod by lia. apply IH; [apply Nat.mod_upper_bound; lia|lia].
Qed.

Lemma coord_pos s : forall i, 0 < i < size_ s -> exists d, d < List.length s /\ 0 < coord s i d.
Proof.
  unfold coord, size_. induction s as [|n t IH]; intros i Hi; cbn [fold_right] in Hi; [lia|].
  cbn [shifts setIndex List.length]. set (P := fold_right Nat.mul 1 t) in *.
  assert (HP : 0 < P) by (destruct P; lia).
  destruct (Nat.eq_dec (i / P) 0) as [E|N].
  - assert (i < P) by (apply Nat.div_small_iff; lia).
    destruct (IH i) as [d [Hd Hc]]; [lia|]. exists (S d). split; [lia|]. cbn [nth].
    rewrite E. replace (i - 0 * P) with i by lia. exact Hc.
  - exists 0. split; [lia|]. cbn. lia.
Qed.

Lemma nb_in s i d j n : (j = 1 \/ j = -1)%Z -> i < size_ s -> d < List.length s -> nb s i d j = Some n ->
  n < size_ s /\ Z.of_nat n = (Z.of_nat i + j * Z.of_nat (shift_ s d))%Z /\ nb s n d (- j) = Some i.
Proof.
  intros Hj Hi Hd. unfold nb.
  destruct ((Z.of_nat (coord s i d) + j >=? Z.of_nat (nth d s 0%nat))%Z
            || (Z.of_nat (coord s i d) + j <? 0)%Z)%bool eqn:C; [discriminate|].
  apply orb_false_iff in C. destruct C as [C1 C2].
  assert (C1' : (Z.of_nat (coord s i d) + j < Z.of_nat (nth d s 0%nat))%Z) by lia.
  assert (C2' : (0 <= Z.of_nat (coord s i d) + j)%Z) by lia.
  destruct (move_gen s i d j Hj Hi Hd ltac:(lia)) as [i' [E1 [E2 E3]]].
  intros E; injection E as E. rewrite <- E1, Nat2Z.id in E. subst n.
  split; [exact E2|]. split; [exact E1|].
  rewrite E3. pose proof (coord_lt s i d Hi Hd).
  replace (Z.of_nat (coord s i d) + j + - j)%Z with (Z.of_nat (coord s i d)) by lia.
  destruct (Z.geb_spec (Z.of_nat (coord s i d)) (Z.of_nat (nth d s 0))); [lia|].
  destruct (Z.ltb_spec (Z.of_nat (coord s i d)) 0); [lia|]. cbn [orb].
  f_equal. lia.
Qed.

Lemma nb_step_down s i : 0 < i < size_ s -> exists d n, d < List.length s /\ nb s i d (-1) = Some n /\ n < i.
Proof.
  intros Hi. destruct (coord_pos s i Hi) as [d [Hd Hc]].
  pose proof (coord_lt s i d ltac:(lia) Hd) as Hl.
  destruct (move_gen s i d (-1) ltac:(lia) ltac:(lia) Hd ltac:(lia)) as [i' [E1 [E2 E3]]].
  exists d, i'. split; [exact Hd|]. unfold nb.
  destruct (Z.geb_spec (Z.of_nat (coord s i d) + -1) (Z.of_nat (nth d s 0))); [lia|].
  destruct (Z.ltb_spec (Z.of_nat (coord s i d) + -1) 0); [lia|]. cbn [orb].
  split; [f_equal; lia|].
  assert (i' <> i) by (intros ->; lia). lia.
Qed.

(** Any set of cells closed under neighbours that contains one cell contains all. *)
Lemma grid_connected s (P : nat -> Prop) :
  (forall i d j n, (j = 1 \/ j = -1)%Z -> i < size_ s -> d < List.length s ->
     nb s i d j = Some n -> P i -> P n) ->
  forall i0, i0 < size_ s -> P i0 -> forall i, i < size_ s -> P i.
Proof.
  intros C.
  assert (Z0 : forall i, i < size_ s -> P i -> P 0).
  { intros i. induction i as [i IH] using lt_wf_ind. intros Hi Pi.
    destruct (Nat.eq_dec i 0) as [->|N]; [exact Pi|].
    destruct (nb_step_down s i ltac:(lia)) as [d [n [Hd [E L]]]].
    apply (IH n L); [lia|]. apply (C i d (-1)%Z n); auto. }
  intros i0 Hi0 P0. pose proof (Z0 i0 Hi0 P0) as PZ.
  intros i. induction i as [i IH] using lt_wf_ind. intros Hi.
  destruct (Nat.eq_dec i 0) as [->|N]; [exact PZ|].
  destruct (nb_step_down s i ltac:(lia)) as [d [n [Hd [E L]]]].
  destruct (nb_in s i d (-1) n ltac:(lia) Hi Hd E) as [Hn [_ Er]].
  apply (C n d 1%Z i); auto.
Qed.
