(** The layers of the ghost filling. *)
From Coq Require Import Reals ZArith Lra.
From Verif Require Import Base Options Mat3 PhysModel FmmModel LevelSetModel UtilsModel UtilsProof FillModel FmmSpec FmmProof6 FillSpec FillProof FillProof2.
Import List ListNotations.
Open Scope nat_scope.

(** a buffer that holds the values of a function *)
Definition tot {A} (n : nat) (b : buf A) (f : nat -> A) : Prop := blen b = n /\ forall c, c < n -> bdat b c = Some (f c).
Lemma tot_rd {A} n (b : buf A) f c : tot n b f -> c < n -> rd b c = Ok (f c).
Proof. intros [L H] Hc. apply rd_ok; [lia|auto]. Qed.
Lemma tot_rdZ {A} n (b : buf A) f z v : tot n b f -> rdZ b z = Ok v -> exists c, z = Z.of_nat c /\ c < n /\ v = f c.
Proof.
  intros [L H] E. unfold rdZ in E. destruct (Z.ltb_spec z 0); [discriminate|]. apply rd_inv in E. destruct E as [E1 E2].
  rewrite L in E1. rewrite (H _ E1) in E2. injection E2 as <-. exists (Z.to_nat z). rewrite Z2Nat.id by lia. auto.
Qed.
Lemma tot_wr {A} n (b : buf A) f c v : tot n b f -> c < n -> exists b', wr b c v = Ok b' /\ tot n b' (upd f c v).
Proof.
  intros [L H] Hc. rewrite wr_ok by lia. eexists. split; [reflexivity|]. split; [exact L|]. intros k Hk. cbn.
  unfold upd. destruct (Nat.eqb_spec k c); [reflexivity|auto].
Qed.
Lemma tot_wr_inv {A} n (b b' : buf A) f c v : tot n b f -> wr b c v = Ok b' -> c < n /\ tot n b' (upd f c v).
Proof.
  intros T E. pose proof (wr_inv _ _ _ _ E) as [L _]. rewrite (proj1 T) in L. split; [exact L|].
  destruct (tot_wr n b f c v T L) as [b2 [E2 T2]]. rewrite E2 in E. injection E as <-. exact T2.
Qed.
Lemma tot_ext {A} n (b : buf A) f f' : (forall c, c < n -> f c = f' c) -> tot n b f -> tot n b f'.
Proof. intros E [L H]. split; [exact L|]. intros c Hc. rewrite H, E by exact Hc. reflexivity. Qed.
Lemma tot_full {A} n (f : nat -> A) : tot n (full n f) f.
Proof. split; [reflexivity|]. intros. reflexivity. Qed.

(** ** looking for a neighbour *)
Definition nb_label (nX : list nat) (m : buf Z) (c : nat) (N0 : Z) : res Z :=
  match nX with
  | [nx] => neighbor_1d nx c m N0
  | [nx; ny] => neighbor_index m (c / ny) (c mod ny) nx ny N0
  | _ => Ok (-1)%Z
  end.
Lemma has_label_tot n m M k N0 : tot n m M -> k < n -> has_label m k N0 = Ok (M k =? N0)%Z.
Proof. intros T H. unfold has_label. rewrite (tot_rd _ _ _ _ T H). reflexivity. Qed.
Lemma guard_label n m M (b : bool) k N0 : tot n m M -> (b = true -> k < n) ->
  guarded b (has_label m k N0) false = Ok (b && (M k =? N0)%Z)%bool.
Proof. intros T H. unfold guarded. destruct b; [|reflexivity]. rewrite (has_label_tot _ _ _ _ _ T) by auto. reflexivity. Qed.

Lemma nb_label_spec nX m M c N0 : dim12 nX -> c < size_ nX -> tot (size_ nX) m M ->
  exists r, nb_label nX m c N0 = Ok r /\
    ((exists k, In k (nbs nX c) /\ M k = N0 /\ r = Z.of_nat k) \/ (r = (-1)%Z /\ forall k, In k (nbs nX c) -> M k <> N0)).
Proof.
  intros [D|D] Hc T.
  - destruct nX as [|nx [|? ?]]; try discriminate D. unfold nb_label, neighbor_1d.
    assert (S1 : size_ [nx] = nx) by (cbn; lia). rewrite S1 in *.
    rewrite (guard_label _ _ _ _ _ _ T) by (rewrite Nat.ltb_lt; lia). cbn [bind].
    rewrite (guard_label _ _ _ _ _ _ T) by (rewrite Nat.ltb_lt; lia). cbn [bind].
    eexists. split; [reflexivity|].
    destruct (Nat.ltb_spec c (nx - 1)); destruct (Z.eqb_spec (M (c + 1)) N0);
      destruct (Nat.ltb_spec 0 c); destruct (Z.eqb_spec (M (c - 1)) N0); cbn [andb];
      try (left; exists (c + 1); rewrite nbs1; repeat split; [lia|assumption]);
      try (left; exists (c - 1); rewrite nbs1; repeat split; [lia|assumption]);
      right; (split; [reflexivity|]); intros k I; apply nbs1 in I; destruct I as [[I ->]|[I ->]]; solve [lia|assumption].
  - destruct nX as [|nx [|ny [|? ?]]]; try discriminate D. unfold nb_label.
    assert (S2 : size_ [nx; ny] = nx * ny) by (cbn; lia). rewrite S2 in *.
    assert (Hy : 0 < ny) by (destruct ny; [lia|lia]).
    set (i := c / ny). set (j := c mod ny).
    assert (Hj : j < ny) by (apply Nat.mod_upper_bound; lia).
    assert (Hi : i < nx) by (apply Nat.div_lt_upper_bound; lia).
    assert (Ec : c = i * ny + j) by (unfold i, j; rewrite Nat.mul_comm; apply Nat.div_mod; lia).
    unfold neighbor_index.
    rewrite (guard_label _ _ _ _ _ _ T) by (rewrite Nat.ltb_lt; intros; apply lt_n; lia). cbn [bind].
    rewrite (guard_label _ _ _ _ _ _ T) by (rewrite Nat.ltb_lt; intros; apply lt_n; lia). cbn [bind].
    rewrite (guard_label _ _ _ _ _ _ T) by (rewrite Nat.ltb_lt; intros; apply lt_n; lia). cbn [bind].
    rewrite (guard_label _ _ _ _ _ _ T) by (rewrite Nat.ltb_lt; intros; apply lt_n; lia). cbn [bind].
    eexists. split; [reflexivity|]. pose proof (nbs2 nx ny i j Hj) as NB. rewrite <- Ec in NB.
    destruct ((j <? ny - 1) && Z.eqb (M (i * ny + (j + 1))) N0)%bool eqn:E4.
    { apply andb_prop in E4. destruct E4 as [A B]. apply Nat.ltb_lt in A. apply Z.eqb_eq in B. left.
      exists (i * ny + (j + 1)). rewrite NB. repeat split; [lia|assumption]. }
    destruct ((0 <? j) && Z.eqb (M (i * ny + (j - 1))) N0)%bool eqn:E3.
    { apply andb_prop in E3. destruct E3 as [A B]. apply Nat.ltb_lt in A. apply Z.eqb_eq in B. left.
      exists (i * ny + (j - 1)). rewrite NB. repeat split; [lia|assumption]. }
    destruct ((i <? nx - 1) && Z.eqb (M ((i + 1) * ny + j)) N0)%bool eqn:E2.
    { apply andb_prop in E2. destruct E2 as [A B]. apply Nat.ltb_lt in A. apply Z.eqb_eq in B. left.
      exists ((i + 1) * ny + j). rewrite NB. repeat split; [lia|assumption]. }
    destruct ((0 <? i) && Z.eqb (M ((i - 1) * ny + j)) N0)%bool eqn:E1.
    { apply andb_prop in E1. destruct E1 as [A B]. apply Nat.ltb_lt in A. apply Z.eqb_eq in B. left.
      exists ((i - 1) * ny + j). rewrite NB. repeat split; [lia|assumption]. }
    right. split; [reflexivity|]. intros k I. apply NB in I.
    rewrite !Bool.andb_false_iff, !Nat.ltb_ge, !Z.eqb_neq in *.
    destruct I as [[I ->]|[[I ->]|[[I ->]|[I ->]]]]; intuition lia.
Qed.

(** ** one cell of one round *)
Section Round.
Variables (o : options) (dX : nat -> R) (nX : list nat) (dphi : nat -> nat -> R).
Hypothesis D12 : dim12 nX.
Notation n := (size_ nX).
Notation fni := (fill_neighbor_inner o dX nX).
(** the probe, one cell against the normal *)
Definition back (c : nat) (nrm : nat -> R) : Z :=
  lin nX (fun d => trunc (((INR (coords nX c d) + / 2) * dX d - dX d * nrm d) / dX d)%R).
Definition stuck (c : nat) : Prop := exists nrm, normal (List.length nX) (dphi c) = Some nrm /\ back c nrm = Z.of_nat c.

Lemma lin_coords c : c < n -> lin nX (fun d => Z.of_nat (coords nX c d)) = Z.of_nat c.
Proof.
  intros Hc. destruct D12 as [D|D].
  - destruct nX as [|nx [|? ?]]; try discriminate D. reflexivity.
  - destruct nX as [|nx [|ny [|? ?]]]; try discriminate D. cbn [lin coords].
    rewrite Nat.eqb_refl. cbn [Nat.eqb]. assert (ny <> 0) by (intros ->; cbn in Hc; lia).
    rewrite <- Nat2Z.inj_mul, <- Nat2Z.inj_add. f_equal. rewrite Nat.mul_comm. symmetry. apply Nat.div_mod. assumption.
Qed.

Lemma fni_inv g G m M c indn g' : c < n -> tot n g G -> tot n m M ->
  fni g (dphi c) (coords nX c) m indn = Ok g' ->
  exists src, src < n /\ tot n g' (upd G c (put_head o (G c) (G src))) /\
    (Z.of_nat src = indn \/ (1 <= M src)%Z /\ (src = c -> stuck c)).
Proof.
  intros Hc Tg Tm E. unfold fill_neighbor_inner in E. unfold stuck.
  destruct (normal (List.length nX) (dphi c)) as [nrm|] eqn:En; [|discriminate].
  rewrite (lin_coords c Hc) in E. fold (back c nrm) in E.
  apply bind_ok in E. destruct E as [b [E1 E]]. cbn zeta in E.
  destruct (tot_rdZ _ _ _ _ _ Tm E1) as [p [Ep [Hp Eb]]].
  apply bind_ok in E. destruct E as [q1 [E2 E]]. destruct (tot_rdZ _ _ _ _ _ Tg E2) as [src [Es [Hs ->]]].
  apply bind_ok in E. destruct E as [q2 [E3 E]]. destruct (tot_rdZ _ _ _ _ _ Tg E3) as [c2 [Ec [_ ->]]].
  assert (c2 = c) by lia. subst c2. unfold wrZ in E. destruct (Z.ltb_spec (Z.of_nat c) 0); [lia|]. rewrite Nat2Z.id in E.
  apply (tot_wr_inv _ _ _ _ _ _ Tg) in E. exists src. split; [exact Hs|]. split; [apply E|].
  destruct (Z.ltb_spec b 1); [left; auto|]. right. assert (src = p) by lia. subst p. rewrite <- Eb. split; [lia|].
  intros ->. exists nrm. split; [reflexivity|]. lia.
Qed.

(** what one cell of round [N0] does; [fr] says which labels are to be filled *)
Definition fires (fr : Z -> bool) (N0 : Z) (M : nat -> Z) (c : nat) : Prop :=
  fr (M c) = true /\ exists k, In k (nbs nX c) /\ M k = N0.
Definition cell_step (fr : Z -> bool) (N0 : Z) (c : nat) (G : nat -> vec) (M : nat -> Z) (g' : buf vec) (m' : buf Z) : Prop :=
  (fires fr N0 M c /\ tot n m' (upd M c (N0 + 1)%Z) /\
    exists src, src < n /\ tot n g' (upd G c (put_head o (G c) (G src))) /\ Z.le 1 (upd M c (N0 + 1)%Z src) /\ (src = c -> stuck c)) \/
  (~ fires fr N0 M c /\ tot n m' M /\ tot n g' G).
Definition fr0 (z : Z) : bool := Z.eqb z 0.
Definition fr2 (z : Z) : bool := (Z.eqb z 0 || Z.eqb z (-2))%bool.

Lemma cell_gen (fr : Z -> bool) N0 c g G m M m1 g1 indn : (1 <= N0)%Z -> (forall z, fr z = true -> (z < 1)%Z) -> c < n -> tot n g G -> tot n m M ->
  fr (M c) = true ->
  nb_label nX m c N0 = Ok indn -> (-1 <? indn)%Z = true -> wr m c (N0 + 1)%Z = Ok m1 ->
  fni g (dphi c) (coords nX c) m1 indn = Ok g1 -> cell_step fr N0 c G M g1 m1.
Proof.
  intros HN Hfr Hc Tg Tm F El Ei Ew Ef. left. destruct (nb_label_spec nX m M c N0 D12 Hc Tm) as [r [Er Hr]].
  rewrite Er in El. injection El as ->. destruct Hr as [[k [I [Ek ->]]]|[-> _]]; [|discriminate].
  apply (tot_wr_inv _ _ _ _ _ _ Tm) in Ew. destruct Ew as [_ T1].
  split; [split; [exact F|exists k; auto]|]. split; [exact T1|].
  destruct (fni_inv _ _ _ _ _ _ _ Hc Tg T1 Ef) as [src [Hs [Tg' H]]]. exists src. split; [exact Hs|]. split; [exact Tg'|].
  destruct H as [H|[H1 H2]]; [|split; [exact H1|exact H2]].
  apply Nat2Z.inj in H. subst src. specialize (Hfr _ F).
  assert (k <> c) by (intros ->; lia). rewrite upd_other by assumption. split; [lia|contradiction].
Qed.

Lemma cell_1d nx N0 c g G m M g' m' : nX = [nx] -> (1 <= N0)%Z -> c < n -> tot n g G -> tot n m M ->
  layer_cell_1d o dX nX dphi nx N0 c (g, m) = Ok (g', m') -> cell_step fr0 N0 c G M g' m'.
Proof.
  intros En HN Hc Tg Tm E. unfold layer_cell_1d in E. rewrite (tot_rd _ _ _ _ Tm Hc) in E. cbn [bind] in E.
  change (Z.eqb (M c) 0) with (fr0 (M c)) in E. destruct (fr0 (M c)) eqn:F.
  - apply bind_ok in E. destruct E as [r [Er E]].
    assert (El : nb_label nX m c N0 = Ok r) by (rewrite En; exact Er).
    destruct (-1 <? r)%Z eqn:Ei.
    + apply bind_ok in E. destruct E as [m1 [E1 E]]. apply bind_ok in E. destruct E as [g1 [E2 E]]. injection E as <- <-.
      apply (cell_gen fr0 N0 c g G m M m1 g1 r); auto. intros z Hz. apply Z.eqb_eq in Hz. lia.
    + injection E as <- <-. right. split; [|auto]. intros [_ [k [I J]]].
      destruct (nb_label_spec nX m M c N0 D12 Hc Tm) as [r' [Er' Hr]]. rewrite Er' in El. injection El as ->.
      destruct Hr as [[k' [_ [_ ->]]]|[_ Hr]]; [apply Z.ltb_ge in Ei; lia|]. exact (Hr k I J).
  - injection E as <- <-. right. split; [|auto]. intros [A _]. congruence.
Qed.
Lemma cell_2d nx ny N0 c g G m M isl g' m' isl' : nX = [nx; ny] -> (1 <= N0)%Z -> c < n -> tot n g G -> tot n m M ->
  layer_cell_2d o dX nX dphi nx ny N0 c (g, m, isl) = Ok (g', m', isl') ->
  cell_step fr2 N0 c G M g' m' /\
  (forall k, In k isl' <-> In k isl \/ (k = c /\ fires fr2 N0 M c /\ M c = (-2)%Z)).
Proof.
  intros En HN Hc Tg Tm E. unfold layer_cell_2d in E. rewrite (tot_rd _ _ _ _ Tm Hc) in E. cbn [bind] in E.
  change (Z.eqb (M c) 0 || Z.eqb (M c) (-2))%bool with (fr2 (M c)) in E. destruct (fr2 (M c)) eqn:F.
  - apply bind_ok in E. destruct E as [r [Er E]].
    assert (El : nb_label nX m c N0 = Ok r) by (rewrite En; exact Er).
    destruct (-1 <? r)%Z eqn:Ei.
    + apply bind_ok in E. destruct E as [m1 [E1 E]]. apply bind_ok in E. destruct E as [g1 [E2 E]]. injection E as <- <- <-.
      assert (CS : cell_step fr2 N0 c G M g1 m1).
      { apply (cell_gen fr2 N0 c g G m M m1 g1 r); auto. intros z Hz. apply Bool.orb_true_iff in Hz. rewrite !Z.eqb_eq in Hz. lia. }
      split; [exact CS|]. assert (Fi : fires fr2 N0 M c).
      { destruct (nb_label_spec nX m M c N0 D12 Hc Tm) as [r' [Er' Hr]]. rewrite Er' in El. injection El as ->.
        destruct Hr as [[k' [I [J ->]]]|[-> _]]; [|discriminate]. split; [exact F|]. exists k'. auto. }
      intros k. destruct (Z.eqb_spec (M c) (-2)) as [E2'|E2'].
      * rewrite in_app_iff. cbn. split; [intros [A|[<-|[]]]; auto|intros [A|[-> _]]; auto].
      * split; [auto|]. intros [A|[_ [_ A]]]; [exact A|contradiction].
    + injection E as <- <- <-.
      assert (NF : ~ fires fr2 N0 M c).
      { intros [_ [k [I J]]].
        destruct (nb_label_spec nX m M c N0 D12 Hc Tm) as [r' [Er' Hr]]. rewrite Er' in El. injection El as ->.
        destruct Hr as [[k' [_ [_ ->]]]|[_ Hr]]; [apply Z.ltb_ge in Ei; lia|]. exact (Hr k I J). }
      split; [right; auto|]. intros k. tauto.
  - injection E as <- <- <-. assert (NF : ~ fires fr2 N0 M c) by (intros [A _]; congruence).
    split; [right; auto|]. intros k. tauto.
Qed.

(** ** one round; [M0], [G0] are the mask and the grid before all rounds *)
Variables (M0 : nat -> Z) (G0 : nat -> vec).
Definition hd_eq (q r : vec) : Prop := forall k, k < V o - LSET o -> q k = r k.
Definition tl_eq (q r : vec) : Prop := forall k, V o - LSET o <= k -> q k = r k.
Definition source (s : nat) : Prop := s < n /\ (M0 s = 1%Z \/ (fr2 (M0 s) = true /\ stuck s)).
Definition filled (q : vec) : Prop := exists s, source s /\ hd_eq q (G0 s).
Record vals (G : nat -> vec) (M : nat -> Z) : Prop := mkvals {
  v_src : forall c, c < n -> (1 <= M c)%Z -> filled (G c);
  v_tl : forall c, c < n -> tl_eq (G c) (G0 c);
  v_keep : forall c, c < n -> fr2 (M0 c) = false -> G c = G0 c /\ M c = M0 c;
  v_zero : forall c, c < n -> M c = 0%Z -> M0 c = 0%Z /\ G c = G0 c;
  v_iso : forall c, c < n -> M c = (-2)%Z -> M0 c = (-2)%Z /\ (G c = G0 c \/ filled (G c)) }.

Lemma put_hd q c : hd_eq (put_head o q c) c.
Proof. intros k Hk. unfold put_head. rewrite setseg_in by lia. f_equal. lia. Qed.
Lemma put_tl q c : tl_eq (put_head o q c) q.
Proof. intros k Hk. unfold put_head. apply setseg_out. lia. Qed.

Lemma vals_upd G M c N0 src : (1 <= N0)%Z -> c < n -> src < n -> fr2 (M c) = true -> vals G M ->
  Z.le 1 (upd M c (N0 + 1)%Z src) -> (src = c -> stuck c) ->
  vals (upd G c (put_head o (G c) (G src))) (upd M c (N0 + 1)%Z).
Proof.
  intros HN Hc Hs F W H1 H2.
  assert (F0 : fr2 (M0 c) = true).
  { destruct (fr2 (M0 c)) eqn:E; [reflexivity|]. destruct (v_keep _ _ W c Hc E) as [_ E']. congruence. }
  assert (FS : filled (put_head o (G c) (G src))).
  { assert (X : filled (G src)).
    { destruct (Nat.eq_dec src c) as [->|N].
      - unfold fr2 in F. apply Bool.orb_true_iff in F. rewrite !Z.eqb_eq in F. destruct F as [F|F].
        + destruct (v_zero _ _ W c Hc F) as [_ ->]. exists c. split; [split; [exact Hc|right; auto]|]. intros k _. reflexivity.
        + destruct (v_iso _ _ W c Hc F) as [_ [->|X]]; [|exact X]. exists c. split; [split; [exact Hc|right; auto]|]. intros k _. reflexivity.
      - rewrite upd_other in H1 by exact N. apply (v_src _ _ W); assumption. }
    destruct X as [s [S1 S2]]. exists s. split; [exact S1|]. intros k Hk. rewrite put_hd by exact Hk. apply S2. exact Hk. }
  constructor; intros k Hk; unfold upd; destruct (Nat.eqb_spec k c) as [->|N]; intros.
  - exact FS.
  - apply (v_src _ _ W); assumption.
  - intros j Hj. rewrite put_tl by exact Hj. apply (v_tl _ _ W); assumption.
  - apply (v_tl _ _ W); assumption.
  - congruence.
  - apply (v_keep _ _ W); assumption.
  - lia.
  - apply (v_zero _ _ W); assumption.
  - lia.
  - apply (v_iso _ _ W); assumption.
Qed.

(** the mask in the middle of a round that has treated the cells below [k] *)
Definition firesb (fr : Z -> bool) (N0 : Z) (M : nat -> Z) (c : nat) : bool :=
  (fr (M c) && existsb (fun k => Z.eqb (M k) N0) (nbs nX c))%bool.
Lemma firesb_spec fr N0 M c : firesb fr N0 M c = true <-> fires fr N0 M c.
Proof.
  unfold firesb, fires. rewrite Bool.andb_true_iff, existsb_exists. split; intros [A [k [B C]]]; (split; [exact A|]); exists k; (split; [exact B|]); apply Z.eqb_eq; exact C.
Qed.
Definition mid (fr : Z -> bool) (N0 : Z) (M : nat -> Z) (k c : nat) : Z :=
  if (Nat.ltb c k && firesb fr N0 M c)%bool then (N0 + 1)%Z else M c.
Lemma mid_fires fr N0 M k c : (1 <= N0)%Z -> (forall z, fr z = true -> (z < 1)%Z) -> k <= c ->
  (fires fr N0 (mid fr N0 M k) c <-> fires fr N0 M c).
Proof.
  intros HN Hfr Hk. unfold fires.
  assert (E : mid fr N0 M k c = M c) by (unfold mid; destruct (Nat.ltb_spec c k); [lia|reflexivity]). rewrite E.
  assert (Q : forall j, mid fr N0 M k j = N0 <-> M j = N0).
  { intros j. unfold mid. destruct (Nat.ltb j k && firesb fr N0 M j)%bool eqn:B; [|tauto].
    apply andb_prop in B. destruct B as [_ B]. apply firesb_spec in B. destruct B as [B _]. apply Hfr in B. lia. }
  split; intros [A [j [I J]]]; (split; [exact A|]); exists j; (split; [exact I|]); apply Q; exact J.
Qed.
Lemma step_mid fr N0 M k G g m g' m' : (1 <= N0)%Z -> (forall z, fr z = true -> (z < 1)%Z /\ fr2 z = true) -> k < n ->
  tot n g G -> tot n m (mid fr N0 M k) -> vals G (mid fr N0 M k) ->
  cell_step fr N0 k G (mid fr N0 M k) g' m' ->
  tot n m' (mid fr N0 M (1 + k)) /\ exists G', tot n g' G' /\ vals G' (mid fr N0 M (1 + k)) /\
    (forall c, c < n -> c <> k \/ ~ fires fr N0 M k -> G' c = G c) /\ (fires fr N0 M k -> filled (G' k)).
Proof.
  intros HN Hfr Hk Tg Tm W CS.
  assert (Hfr1 : forall z, fr z = true -> (z < 1)%Z) by (intros; apply Hfr; assumption).
  destruct CS as [[F [T' [src [Hs [Tg' [H1 H2]]]]]]|[NF [T' Tg']]].
  - assert (E : forall c, upd (mid fr N0 M k) k (N0 + 1)%Z c = mid fr N0 M (1 + k) c).
    { assert (F' := F). apply mid_fires in F'; [|assumption|assumption|lia]. apply firesb_spec in F'.
      intros c. unfold upd. destruct (Nat.eqb_spec c k) as [->|N].
      - unfold mid. rewrite F'. destruct (Nat.ltb_spec k (1 + k)); [reflexivity|lia].
      - unfold mid. destruct (Nat.ltb_spec c k); destruct (Nat.ltb_spec c (1 + k)); try lia; reflexivity. }
    split; [revert T'; apply tot_ext; intros; apply E|].
    assert (W' : vals (upd G k (put_head o (G k) (G src))) (upd (mid fr N0 M k) k (N0 + 1)%Z)).
    { apply vals_upd; auto. destruct F as [F _]. apply Hfr in F. apply F. }
    exists (upd G k (put_head o (G k) (G src))). split; [exact Tg'|]. split; [|split].
    + destruct W' as [w1 w2 w3 w4 w5]. constructor; intros c Hc; rewrite <- ?E; auto.
    + intros c Hc [N|NF]; [apply upd_other; exact N|]. exfalso. apply NF. apply mid_fires in F; auto.
    + intros _. apply (v_src _ _ W' k Hk). rewrite upd_same. lia.
  - assert (NF' : ~ fires fr N0 M k) by (intros X; apply NF; apply mid_fires; auto).
    assert (E : forall c, mid fr N0 M k c = mid fr N0 M (1 + k) c).
    { intros c. unfold mid. destruct (Nat.ltb_spec c k); destruct (Nat.ltb_spec c (1 + k)); try lia; try reflexivity.
      assert (c = k) by lia. subst c. destruct (firesb fr N0 M k) eqn:B; [|reflexivity]. apply firesb_spec in B. contradiction. }
    split; [revert T'; apply tot_ext; intros; apply E|].
    exists G. split; [exact Tg'|]. split; [|split].
    + destruct W as [w1 w2 w3 w4 w5]. constructor; intros c Hc; rewrite <- ?E; auto.
    + auto.
    + intros F. contradiction.
Qed.
Lemma mid0 fr N0 M c : mid fr N0 M 0 c = M c.
Proof. unfold mid. destruct (Nat.ltb_spec c 0); [lia|reflexivity]. Qed.

(** the labels after a round *)
Definition next_label (N0 : Z) (M : nat -> Z) (c : nat) : Z := if firesb fr0 N0 M c then (N0 + 1)%Z else M c.

Lemma resets l : forall m M m', tot n m M -> fold_res (fun i m => wr m i (-2)%Z) l m = Ok m' ->
  (forall k, In k l -> k < n) /\
  exists M', tot n m' M' /\ (forall c, In c l -> M' c = (-2)%Z) /\ (forall c, ~ In c l -> M' c = M c).
Proof.
  induction l as [|a l IH]; intros m M m' T E; cbn [fold_res] in E.
  - injection E as <-. split; [intros k []|]. exists M. split; [exact T|]. split; [intros c []|auto].
  - apply bind_ok in E. destruct E as [m1 [E1 E]]. apply (tot_wr_inv _ _ _ _ _ _ T) in E1. destruct E1 as [Ha T1].
    destruct (IH _ _ _ T1 E) as [Hl [M' [T' [A B]]]]. split; [intros k [<-|I]; auto|]. exists M'. split; [exact T'|].
    split.
    + intros c [<-|I]; [|auto]. destruct (in_dec Nat.eq_dec a l) as [I|I]; [auto|]. rewrite B by exact I. apply upd_same.
    + intros c I. rewrite B by (intros X; apply I; right; exact X). apply upd_other. intros ->. apply I. left. reflexivity.
Qed.

Lemma layer_inv N0 g G m M g' m' : (1 <= N0)%Z -> tot n g G -> tot n m M -> vals G M ->
  layer o dX nX dphi N0 (g, m) = Ok (g', m') ->
  exists G', tot n g' G' /\ tot n m' (next_label N0 M) /\ vals G' (next_label N0 M) /\
    (forall c, c < n -> ~ fires fr2 N0 M c -> G' c = G c) /\
    (forall c, c < n -> M c = (-2)%Z -> List.length nX = 2 -> fires fr2 N0 M c -> filled (G' c)).
Proof.
  intros HN Tg Tm W E. destruct D12 as [D|D].
  - destruct nX as [|nx [|? ?]] eqn:En; try discriminate D. rewrite <- En in *.
    assert (E' : for_loop nx 0 (layer_cell_1d o dX nX dphi nx N0) (g, m) = Ok (g', m')) by (rewrite En in *; exact E). clear E.
    assert (Sz : size_ nX = nx) by (rewrite En; cbn; lia).
    assert (Hfr : forall z, fr0 z = true -> (z < 1)%Z /\ fr2 z = true).
    { intros z Hz. unfold fr2. unfold fr0 in Hz. rewrite Hz. apply Z.eqb_eq in Hz. split; [lia|reflexivity]. }
    assert (F02 : forall c, fires fr0 N0 M c -> fires fr2 N0 M c) by (intros c [A B]; split; [apply Hfr; exact A|exact B]).
    pose proof (for_loop_inv_ok (fun k s => tot n (snd s) (mid fr0 N0 M k) /\
      exists G', tot n (fst s) G' /\ vals G' (mid fr0 N0 M k) /\ (forall c, c < n -> ~ fires fr2 N0 M c -> G' c = G c))
      _ _ _ _ _ E') as I. cbn [fst snd] in I.
    destruct I as [T1 [G' [T2 [W' K]]]].
    + split; [revert Tm; apply tot_ext; intros; symmetry; apply mid0|]. exists G. split; [exact Tg|]. split; [|auto].
      destruct W as [w1 w2 w3 w4 w5]; constructor; intros c Hc; rewrite ?mid0; auto.
    + intros k [g1 m1] [g2 m2] Hk [T1 [G1 [T2 [W1 K1]]]] E1. cbn [fst snd] in *.
      pose proof (cell_1d nx N0 k g1 G1 m1 _ g2 m2 En HN ltac:(lia) T2 T1 E1) as CS.
      destruct (step_mid fr0 N0 M k G1 g1 m1 g2 m2 HN Hfr ltac:(lia) T2 T1 W1 CS) as [T3 [G2 [T4 [W2 [K2 _]]]]].
      split; [exact T3|]. exists G2. split; [exact T4|]. split; [exact W2|]. intros c Hc NF. rewrite K2; [apply K1; assumption|exact Hc|].
      destruct (Nat.eq_dec c k) as [->|N]; [right|left; exact N]. intros X. apply NF. apply F02. exact X.
    + assert (E : forall c, c < n -> mid fr0 N0 M (0 + nx) c = next_label N0 M c).
      { intros c Hc. unfold mid, next_label. destruct (Nat.ltb_spec c (0 + nx)); [reflexivity|lia]. }
      exists G'. split; [exact T2|]. split; [revert T1; apply tot_ext; exact E|]. split; [|split; [exact K|intros c Hc _ Q; lia]].
      destruct W' as [w1 w2 w3 w4 w5]; constructor; intros c Hc; rewrite <- ?E by exact Hc; auto.
  - destruct nX as [|nx [|ny [|? ?]]] eqn:En; try discriminate D. rewrite <- En in *.
    assert (Sz : size_ nX = nx * ny) by (rewrite En; cbn; lia).
    assert (E' : (' (g, m, isl) <- for_loop (nx * ny) 0 (layer_cell_2d o dX nX dphi nx ny N0) ((g, m), []) ;;
      m <- fold_res (fun i m => wr m i (-2)%Z) isl m ;; Ok (g, m)) = Ok (g', m')) by (rewrite En in *; exact E). clear E.
    apply bind_ok in E'. destruct E' as [[[g1 m1] isl] [E1 E2]]. apply bind_ok in E2. destruct E2 as [m2 [E2 E3]].
    injection E3 as -> ->.
    assert (Hfr : forall z, fr2 z = true -> (z < 1)%Z /\ fr2 z = true).
    { intros z Hz. split; [|exact Hz]. apply Bool.orb_true_iff in Hz. rewrite !Z.eqb_eq in Hz. lia. }
    pose proof (for_loop_inv_ok (fun k s => tot n (snd (fst s)) (mid fr2 N0 M k) /\
      exists G', tot n (fst (fst s)) G' /\ vals G' (mid fr2 N0 M k) /\ (forall c, c < n -> ~ fires fr2 N0 M c -> G' c = G c) /\
        (forall c, c < k -> fires fr2 N0 M c -> filled (G' c)) /\
        (forall c, In c (snd s) <-> c < k /\ fires fr2 N0 M c /\ M c = (-2)%Z))
      _ _ _ _ _ E1) as I. cbn [fst snd] in I.
    destruct I as [T1 [G' [T2 [W' [K [Fl L]]]]]].
    + split; [revert Tm; apply tot_ext; intros; symmetry; apply mid0|]. exists G. split; [exact Tg|]. split; [|split; [auto|split; [intros; lia|]]].
      * destruct W as [w1 w2 w3 w4 w5]; constructor; intros c Hc; rewrite ?mid0; auto.
      * intros c. cbn. split; [tauto|lia].
    + intros k [[g3 m3] l3] [[g4 m4] l4] Hk [T1 [G1 [T2 [W1 [K1 [Fl1 L1]]]]]] E3. cbn [fst snd] in *.
      destruct (cell_2d nx ny N0 k g3 G1 m3 _ l3 g4 m4 l4 En HN ltac:(lia) T2 T1 E3) as [CS LS].
      destruct (step_mid fr2 N0 M k G1 g3 m3 g4 m4 HN Hfr ltac:(lia) T2 T1 W1 CS) as [T3 [G2 [T4 [W2 [K2 F2]]]]].
      assert (FF : fires fr2 N0 (mid fr2 N0 M k) k <-> fires fr2 N0 M k) by (apply mid_fires; [exact HN|intros; apply Hfr; assumption|lia]).
      assert (MM : mid fr2 N0 M k k = M k) by (unfold mid; destruct (Nat.ltb_spec k k); [lia|reflexivity]).
      split; [exact T3|]. exists G2. split; [exact T4|]. split; [exact W2|]. split; [|split].
      * intros c Hc NF. rewrite K2; [apply K1; assumption|exact Hc|].
        destruct (Nat.eq_dec c k) as [->|N]; [right; exact NF|left; exact N].
      * intros c Hc F. destruct (Nat.eq_dec c k) as [->|N]; [apply F2; exact F|]. rewrite K2 by (auto; lia). apply Fl1; [lia|exact F].
      * intros c. rewrite LS, L1, FF, MM. split.
        -- intros [[A B]|[-> B]]; [split; [lia|exact B]|split; [lia|exact B]].
        -- intros [A B]. destruct (Nat.eq_dec c k) as [->|N]; [right; auto|left; split; [lia|exact B]].
    + destruct (resets isl m1 _ m' T1 E2) as [_ [M' [T' [A B]]]].
      assert (E : forall c, c < n -> M' c = next_label N0 M c).
      { intros c Hc. unfold next_label. destruct (in_dec Nat.eq_dec c isl) as [I|I].
        - rewrite A by exact I. apply L in I. destruct I as [_ [_ Q]]. unfold firesb, fr0. rewrite Q. reflexivity.
        - rewrite B by exact I. unfold mid. destruct (Nat.ltb_spec c (0 + nx * ny)); [|lia]. cbn [andb].
          unfold firesb, fr2, fr0. destruct (Z.eqb_spec (M c) 0) as [Q|Q]; [reflexivity|]. cbn [orb andb].
          destruct (Z.eqb_spec (M c) (-2)) as [Q2|Q2]; [|reflexivity]. cbn [andb].
          destruct (existsb _ _) eqn:X; [|reflexivity]. exfalso. apply I. apply L. split; [lia|]. split; [|exact Q2].
          apply firesb_spec. unfold firesb. rewrite X, Q2. reflexivity. }
      exists G'. split; [exact T2|]. split; [revert T'; apply tot_ext; exact E|]. split; [|split; [exact K|]].
      * destruct W' as [w1 w2 w3 w4 w5].
        assert (Mx : forall c, c < n -> ~ In c isl -> mid fr2 N0 M (0 + nx * ny) c = next_label N0 M c).
        { intros c Hc I. rewrite <- B by exact I. apply E. exact Hc. }
        assert (Mi : forall c, c < n -> In c isl -> next_label N0 M c = (-2)%Z /\ M0 c = (-2)%Z /\ filled (G' c)).
        { intros c Hc I. rewrite <- E by exact Hc. split; [apply A; exact I|]. apply L in I. destruct I as [_ [F Q]].
          split; [apply (v_iso _ _ W c Hc Q)|]. apply Fl; [lia|exact F]. }
        constructor; intros c Hc; try (lazymatch goal with |- tl_eq _ _ => fail | _ => idtac end; intros X; destruct (in_dec Nat.eq_dec c isl) as [I|I];
           [destruct (Mi c Hc I) as [Q1 [Q2 Q3]]|]).
        -- exact Q3.
        -- apply w1; [exact Hc|]. rewrite Mx; assumption.
        -- apply w2. exact Hc.
        -- rewrite Q2 in X. discriminate.
        -- rewrite <- Mx by assumption. apply w3; assumption.
        -- lia.
        -- apply w4; [exact Hc|]. rewrite Mx; assumption.
        -- auto.
        -- apply w5; [exact Hc|]. rewrite Mx; assumption.
      * intros c Hc _ _ F. apply Fl; [lia|exact F].
Qed.
End Round.
