(** Concrete executions of the marcher outside its contract, and [renormalize_levelsets]. *)
From Coq Require Import FunctionalExtensionality.
From Verif Require Import Base Options HeapModel HeapSpec HeapProof FmmModel FmmGrid FmmProof FmmProof2 FmmProof3 FmmProof4 FmmProof5 FmmSpec FmmProof6 LevelSetModel.
Open Scope nat_scope.

(** no interface: the error code is dropped and the distance is zero everywhere *)
Lemma fmm_single_sign shape dX phi : List.length shape <= 2 ->
  (forall d, d < List.length shape -> (0 < nth d dX 0)%R) ->
  ~ has_interface shape (fun c => phi (flat shape c)) ->
  exists b, distance shape dX phi = Ok b /\ forall c, inside shape c -> rd b (flat shape c) = Ok 0%R.
Proof.
  intros Hnd HdX Hi.
  assert (Hm : exists M, forall d, d < List.length shape -> (0 < nth d dX 0 <= M)%R).
  { exists (Rmax (nth 0 dX 0) (nth 1 dX 0))%R. intros d Hd. specialize (HdX d Hd). split; [exact HdX|].
    destruct d as [|[|d]]; [apply Rmax_l|apply Rmax_r|lia]. }
  destruct Hm as [M HM].
  destruct (solve_spec shape dX phi (fun _ _ _ => True)) as [b [D [E [[L Vb] C]]]]; auto; [lia|].
  exists b. split; [exact E|]. intros c Hc. pose proof (flat_lt shape c Hc) as Lc.
  destruct C as [[_ Z]|[[i [Hil Fi]] _]].
  - rewrite <- (Z _ Lc). apply rd_ok; [rewrite L; exact Lc|apply Vb; exact Lc].
  - exfalso. apply Hi. destruct (flat_surj shape i Hil) as [c' [Hc' <-]].
    apply (F0_on shape dX phi M Hnd HM c' Hc') in Fi. destruct Fi as [Z|[d [c2 X]]].
    + left. exists c'. auto.
    + right. exists d, c', c2. auto.
Qed.

(** a level set with a tiny positive value behind a cell at distance 1 *)
Definition phi_skip (i : nat) : R := match i with 0 => 0%R | 1 => 1%R | _ => doubleEpsilon end.
Definition phi_flip (i : nat) : R := match i with 0 => (-1)%R | 1 => 1%R | _ => doubleEpsilon end.

Lemma eps1 : (0 < doubleEpsilon < 1)%R.
Proof. unfold doubleEpsilon. split; [apply Rinv_0_lt_compat; apply pow_lt; lra|].
  rewrite <- Rinv_1 at 1. rewrite Rinv_1. rewrite <- Rinv_1. apply Rinv_lt_contravar; [rewrite Rmult_1_l; apply pow_lt; lra|].
  apply Rlt_pow_R1; [lra|lia]. Qed.
Lemma big2 : (1000 < maxDouble)%R.
Proof.
  unfold maxDouble. assert (A : (1024 <= 2 ^ 1023)%R).
  { replace 1024%R with (2 ^ 10)%R by ring. apply Rle_pow; [lra|lia]. }
  pose proof eps1. unfold doubleEpsilon in H. nra.
Qed.
Lemma Rabs_maxD : Rabs maxDouble = maxDouble.
Proof. apply Rabs_pos_eq. pose proof big2. lra. Qed.

Lemma nb3 : nb [3] 0 0 (-1) = None /\ nb [3] 0 0 1 = Some 1 /\ nb [3] 1 0 (-1) = Some 0 /\ nb [3] 1 0 1 = Some 2 /\
  nb [3] 2 0 (-1) = Some 1 /\ nb [3] 2 0 1 = None.
Proof. repeat split; vm_compute; reflexivity. Qed.

Ltac rdec := repeat match goal with
  | |- context [Rlt_dec ?a ?b] =>
      lazymatch a with context [Rlt_dec _ _] => fail | _ => idtac end;
      lazymatch b with context [Rlt_dec _ _] => fail | _ => idtac end;
      destruct (Rlt_dec a b); try (exfalso; lra)
  end.

(** value of an update in a 1-D grid of spacing 1 with best neighbour value v *)
Lemma quad1 phi i v : solveQuadratic phi i (0 + idx2 [1%R] 0) (0 - idx2 [1%R] 0 * 2 * v) (0 + idx2 [1%R] 0 * v ^ 2) =
  if Rlt_dec doubleEpsilon (phi i) then (v + 1)%R else (v - 1)%R.
Proof.
  unfold solveQuadratic, idx2. cbn [nth].
  replace ((0 - 1 / 1 / 1 * 2 * v) ^ 2 - 4 * (0 + 1 / 1 / 1) * (0 + 1 / 1 / 1 * v ^ 2 - 1))%R with (2 * 2)%R by field.
  rewrite sqrt_square by lra. destruct (Rlt_dec 0 (2 * 2)); [|lra].
  destruct (Rlt_dec doubleEpsilon (phi i)); field.
Qed.
Lemma quad0 phi i : solveQuadratic phi i 0 0 0 = 0%R.
Proof. unfold solveQuadratic. destruct (Rlt_dec _ _) as [H|H]; [|reflexivity]. exfalso. lra. Qed.

Lemma upd3 phi F T i : updv [3] [1%R] phi F T i =
  let v := bestv [3] F T i 0 in
  if Rlt_dec v maxDouble then (if Rlt_dec doubleEpsilon (phi i) then v + 1 else v - 1)%R else 0%R.
Proof.
  unfold updv, abcv. cbn [dims dim_ List.length seq fold_left].
  destruct (Rlt_dec (bestv [3] F T i 0) maxDouble).
  - rewrite quad1. destruct (Rlt_dec doubleEpsilon (phi i)); reflexivity.
  - apply quad0.
Qed.

(** C07 fails for tiny positive values: the cell is skipped and gets the largest double *)
Theorem fmm_skip_lemma : exists b, distance [3] [1%R] phi_skip = Ok b /\ rd b 2 = Ok maxDouble.
Proof.
  destruct nb3 as [N1 [N2 [N3 [N4 [N5 N6]]]]]. pose proof eps1 as He. pose proof big2 as Hb. pose proof Rabs_maxD as Hm.
  set (VV := fun (_ : list (nat * nat * Z)) (F : nat -> flg) (T : nat -> R) =>
     F 0 = Frozen /\ T 0 = 0%R /\ (F 1 = Narrow \/ F 1 = Frozen) /\ T 1 = 1%R /\ F 2 = Far).
  assert (U1 : forall F T, F 0 = Frozen -> T 0 = 0%R -> (F 2 = Far) -> updv [3] [1%R] phi_skip F T 1 = 1%R).
  { intros F T F0 T0 F2. rewrite upd3. unfold bestv, nbF. cbn [dirs fold_left]. rewrite N3, N4, F0, F2.
    cbn [flg_eqb]. rewrite F0, F2, T0. cbn [flg_eqb]. rewrite Rabs_R0, Hm. cbv zeta. change (phi_skip 1) with 1%R. rdec; lra. }
  assert (U2 : forall F T, (F 1 = Narrow \/ F 1 = Frozen) -> T 1 = 1%R -> updv [3] [1%R] phi_skip F T 2 = 0%R).
  { intros F T F1 T1. rewrite upd3. unfold bestv, nbF. cbn [dirs fold_left]. rewrite N5, N6.
    destruct F1 as [F1 | F1]; rewrite F1; cbn [flg_eqb]; rewrite F1; cbn [flg_eqb]; rewrite ?T1, ?Rabs_R1, ?Hm; cbv zeta; change (phi_skip 2) with doubleEpsilon; rdec; lra. }
  assert (C3 : forall i, i < 3 -> i = 0 \/ i = 1 \/ i = 2) by lia.
  destruct (solve_spec [3] [1%R] phi_skip VV) as [b [D [E [[L Vb] C]]]]; unfold VV.
  - intros todo F T i [A [B [C [D E]]]] Hi Fi _ _. change (size_ [3]) with 3 in Hi.
    destruct (C3 i Hi) as [-> |[-> | ->]]; try congruence.
    rewrite upd_same, !upd_other by discriminate. auto.
  - auto.
  - auto.
  - intros a d j todo F T n [A [B [C [D E]]]] Ha Hd Hj En Fn Un.
    pose proof (nb_lt [3] a d j n Hj Ha Hd En) as Hn. change (size_ [3]) with 3 in Hn.
    destruct (C3 n Hn) as [-> |[-> | ->]]; try congruence.
    rewrite upd_same, !upd_other by discriminate. rewrite U1 by assumption. auto.
  - intros a d j todo F T n [A [B [C [D E]]]] Ha Hd Hj En Fn Un.
    pose proof (nb_lt [3] a d j n Hj Ha Hd En) as Hn. change (size_ [3]) with 3 in Hn.
    destruct (C3 n Hn) as [-> |[-> | ->]]; try congruence.
    + destruct C; congruence.
    + exfalso. apply Un. apply U2; assumption.
  - intros F T NBH _.
    assert (HdX : forall d, d < List.length [3] -> (0 < nth d [1%R] 0 <= 1)%R).
    { intros [|d] Hd; cbn in *; [lra|lia]. }
    assert (F00 : F0 [3] [1%R] phi_skip 0 = Frozen).
    { apply (F0_spec [3] [1%R] phi_skip 1 HdX ltac:(cbn; lia)). left. reflexivity. }
    assert (NF : forall i, i <> 0 -> i < 3 -> F0 [3] [1%R] phi_skip i <> Frozen).
    { intros i Ni Hi X. apply (F0_spec [3] [1%R] phi_skip 1 HdX ltac:(cbn; lia)) in X.
      destruct X as [X|[d [j [n [Hd [Hj [En X]]]]]]].
      - destruct (C3 i Hi) as [-> |[-> | ->]]; try congruence; unfold phi_skip in X; lra.
      - assert (phi_skip i >= 0 /\ phi_skip n >= 0)%R.
        { split; [destruct i as [|[|?]]|destruct n as [|[|?]]]; unfold phi_skip; lra. }
        nra. }
    pose proof (nb_froz _ _ _ _ _ _ NBH) as Fr. change (size_ [3]) with 3 in *.
    assert (A0 : F 0 = Frozen) by (apply Fr; [lia|exact F00]).
    assert (A1 : F 1 = Narrow).
    { pose proof (nb_done _ _ _ _ _ _ NBH 1 ltac:(cbn; lia) I) as X.
      destruct (F 1) eqn:E1; auto.
      - exfalso. apply X; [reflexivity|]. exists 0, (-1)%Z, 0. cbn. repeat split; auto; cbn; lia.
      - exfalso. apply (NF 1); [lia|lia|]. apply Fr; [cbn; lia|assumption].
      - exfalso. apply (nb_nomask _ _ _ _ _ _ NBH 1); [cbn; lia|assumption]. }
    assert (A2 : F 2 = Far).
    { destruct (F 2) eqn:E2; auto; exfalso.
      - destruct (nb_narrow _ _ _ _ _ _ NBH 2 ltac:(cbn; lia) E2) as [_ [X _]].
        destruct X as [d [j [n [Hd [Hj [En Fn]]]]]]. cbn in Hd. assert (d = 0) by lia. subst d.
        cbn in Hj. destruct Hj as [<-|[<-|[]]]; [rewrite N5 in En|rewrite N6 in En]; [|discriminate].
        injection En as <-. apply (NF 1); [lia|lia|exact Fn].
      - apply (NF 2); [lia|lia|]. apply Fr; [cbn; lia|assumption].
      - apply (nb_nomask _ _ _ _ _ _ NBH 2); [cbn; lia|assumption]. }
    assert (T00 : T 0 = 0%R).
    { rewrite (nb_keep _ _ _ _ _ _ NBH 0 ltac:(cbn; lia) F00). apply T0_zero. reflexivity. }
    assert (T11 : T 1 = 1%R).
    { destruct (nb_narrow _ _ _ _ _ _ NBH 1 ltac:(cbn; lia) A1) as [_ [_ ->]].
      apply U1; [exact F00|apply T0_zero; reflexivity|].
      destruct (F0_cases [3] [1%R] phi_skip 2) as [X|X]; [exact X|]. exfalso. apply (NF 2); [lia|lia|exact X]. }
    auto.
  - cbn; lia.
  - exists b. split; [exact E|]. change (size_ [3]) with 3 in *.
    assert (X : D 2 = maxDouble).
    { destruct C as [[C _]|[_ [F [T [[_ [_ [_ [_ F2]]]] [_ Dc]]]]]].
      - exfalso. assert (HdX : forall d, d < List.length [3] -> (0 < nth d [1%R] 0 <= 1)%R).
        { intros [|d] Hd; cbn in *; [lra|lia]. }
        assert (F0 [3] [1%R] phi_skip 0 = Frozen).
        { apply (F0_spec [3] [1%R] phi_skip 1 HdX ltac:(cbn; lia)). left. reflexivity. }
        rewrite C in H by lia. discriminate.
      - rewrite Dc, F2 by lia. reflexivity. }
    rewrite <- X. apply rd_ok; [rewrite L; lia|apply Vb; lia].
Qed.

(** C06 fails for tiny positive values: the cell behind the interface gets the opposite sign *)
Theorem fmm_flip_lemma : exists b, distance [3] [1%R] phi_flip = Ok b /\ rd b 2 = Ok (-1/2)%R.
Proof.
  destruct nb3 as [N1 [N2 [N3 [N4 [N5 N6]]]]]. pose proof eps1 as He. pose proof big2 as Hb. pose proof Rabs_maxD as Hm.
  set (VV := fun (_ : list (nat * nat * Z)) (F : nat -> flg) (T : nat -> R) =>
     F 0 = Frozen /\ F 1 = Frozen /\ (F 2 = Narrow \/ F 2 = Frozen) /\ T 1 = (1/2)%R /\ T 2 = (-1/2)%R).
  assert (U2 : forall F T, F 1 = Frozen -> T 1 = (1/2)%R -> updv [3] [1%R] phi_flip F T 2 = (-1/2)%R).
  { intros F T F1 T1. rewrite upd3. unfold bestv, nbF. cbn [dirs fold_left]. rewrite N5, N6, F1. cbn [flg_eqb].
    rewrite F1, T1. cbn [flg_eqb]. rewrite Hm, (Rabs_pos_eq (1/2)) by lra. cbv zeta.
    change (phi_flip 2) with doubleEpsilon. rdec; lra. }
  assert (HdX : forall d, d < List.length [3] -> (0 < nth d [1%R] 0 <= 1)%R).
  { intros [|d] Hd; cbn in *; [lra|lia]. }
  assert (Hbig : (1 * (INR (size_ [3%nat]) + 1) < maxDouble)%R) by (change (size_ [3]) with 3; cbn; lra).
  assert (fc : face [3] phi_flip 0 0 1%Z 1 /\ face [3] phi_flip 1 0 (-1)%Z 0).
  { unfold face. cbn [List.length dirs In]. unfold phi_flip. repeat split; auto; lra. }
  assert (F00 : F0 [3] [1%R] phi_flip 0 = Frozen).
  { apply (F0_spec [3] [1%R] phi_flip 1 HdX ltac:(cbn; lia)). right. exists 0, 1%Z, 1. apply fc. }
  assert (F01 : F0 [3] [1%R] phi_flip 1 = Frozen).
  { apply (F0_spec [3] [1%R] phi_flip 1 HdX ltac:(cbn; lia)). right. exists 0, (-1)%Z, 0. apply fc. }
  assert (T01 : T0 [3] [1%R] phi_flip 1 = (1/2)%R).
  { destruct (T0_face [3] [1%R] phi_flip 1 HdX Hbig ltac:(lra) ltac:(cbn; lia) 1) as [S [[d [j [n [Hf E]]]] _]].
    - exists 0, (-1)%Z, 0. apply fc.
    - assert (P : (0 < T0 [3%nat] [1%R] phi_flip 1%nat)%R) by (apply S; unfold phi_flip; lra).
      rewrite Rabs_pos_eq in E by lra. rewrite E.
      destruct Hf as [Hd [Hj [En L]]]. cbn in Hd. assert (d = 0) by lia. subst d.
      cbn in Hj. destruct Hj as [<-|[<-|[]]].
      + rewrite N3 in En. injection En as <-. unfold cd. cbn [nth]. unfold phi_flip.
        rewrite (Rabs_pos_eq 1), (Rabs_left (-1)) by lra. field.
      + rewrite N4 in En. injection En as <-. unfold phi_flip in L. lra. }
  assert (NF2 : F0 [3] [1%R] phi_flip 2 <> Frozen).
  { intros X. apply (F0_spec [3] [1%R] phi_flip 1 HdX ltac:(cbn; lia)) in X.
    destruct X as [X|[d [j [n [Hd [Hj [En X]]]]]]]; [unfold phi_flip in X; lra|].
    cbn in Hd. assert (d = 0) by lia. subst d. cbn in Hj. destruct Hj as [<-|[<-|[]]].
    - rewrite N5 in En. injection En as <-. unfold phi_flip in X. lra.
    - rewrite N6 in En. discriminate. }
  assert (C3 : forall i, i < 3 -> i = 0 \/ i = 1 \/ i = 2) by lia.
  destruct (solve_spec [3] [1%R] phi_flip VV) as [b [D [E [[L Vb] C]]]]; unfold VV.
  - intros todo F T i [A [B [C [D E]]]] Hi Fi _ _. change (size_ [3]) with 3 in Hi.
    destruct (C3 i Hi) as [-> |[-> | ->]]; try congruence.
    rewrite upd_same, !upd_other by discriminate. auto.
  - auto.
  - auto.
  - intros a d j todo F T n [A [B [C [D E]]]] Ha Hd Hj En Fn Un.
    pose proof (nb_lt [3] a d j n Hj Ha Hd En) as Hn. change (size_ [3]) with 3 in Hn.
    destruct (C3 n Hn) as [-> |[-> | ->]]; try congruence.
    rewrite upd_same, !upd_other by discriminate. rewrite U2 by assumption. auto.
  - intros a d j todo F T n [A [B [C [D E]]]] Ha Hd Hj En Fn Un.
    pose proof (nb_lt [3] a d j n Hj Ha Hd En) as Hn. change (size_ [3]) with 3 in Hn.
    destruct (C3 n Hn) as [-> |[-> | ->]]; try congruence. destruct C; congruence.
  - intros F T NBH _.
    pose proof (nb_froz _ _ _ _ _ _ NBH) as Fr. change (size_ [3]) with 3 in *.
    assert (A0 : F 0 = Frozen) by (apply Fr; [lia|exact F00]).
    assert (A1 : F 1 = Frozen) by (apply Fr; [lia|exact F01]).
    assert (A2 : F 2 = Narrow).
    { pose proof (nb_done _ _ _ _ _ _ NBH 2 ltac:(cbn; lia) I) as X.
      destruct (F 2) eqn:E1; auto.
      - exfalso. apply X; [reflexivity|]. exists 0, (-1)%Z, 1. cbn [List.length dirs In]. auto.
      - exfalso. apply NF2. apply Fr; [cbn; lia|assumption].
      - exfalso. apply (nb_nomask _ _ _ _ _ _ NBH 2); [cbn; lia|assumption]. }
    assert (T11 : T 1 = (1/2)%R).
    { rewrite (nb_keep _ _ _ _ _ _ NBH 1 ltac:(cbn; lia) F01). exact T01. }
    assert (T22 : T 2 = (-1/2)%R).
    { destruct (nb_narrow _ _ _ _ _ _ NBH 2 ltac:(cbn; lia) A2) as [_ [_ ->]]. apply U2; assumption. }
    auto.
  - cbn; lia.
  - exists b. split; [exact E|]. change (size_ [3]) with 3 in *.
    assert (X : D 2 = (-1/2)%R).
    { destruct C as [[C _]|[_ [F [T [[_ [_ [F2 [_ T2]]]] [Fc Dc]]]]]].
      - exfalso. rewrite C in F00 by lia. discriminate.
      - rewrite Dc by lia. destruct F2 as [F2|F2].
        + destruct (Fc 2 ltac:(lia)); congruence.
        + rewrite F2. exact T2. }
    rewrite <- X. apply rd_ok; [rewrite L; lia|apply Vb; lia].
Qed.

(** ** renormalize_levelsets *)
Lemma set_col_ok ncell k b D u : view ncell b D ->
  set_col ncell k b u = Ok (fun i => if Nat.ltb i ncell then upd (u i) k (D i) else u i).
Proof.
  intros [L Vb]. unfold set_col.
  destruct (for_loop_inv (fun i v => v = fun c => if Nat.ltb c i then upd (u c) k (D c) else u c) ncell 0
     (fun i u => v <- rd b i ;; Ok (upd u i (upd (u i) k v))) u) as [s [E ->]].
  - reflexivity.
  - intros i s Hi ->. rewrite (rd_ok b i (D i)); [|lia|apply Vb; lia]. cbn [bind].
    eexists. split; [reflexivity|]. apply functional_extensionality. intros c. unfold upd at 1.
    destruct (Nat.eqb_spec c i) as [-> |Nc].
    + destruct (Nat.ltb_spec i i); [lia|]. destruct (Nat.ltb_spec i (1 + i)); [reflexivity|lia].
    + destruct (Nat.ltb_spec c i), (Nat.ltb_spec c (1 + i)); try lia; reflexivity.
  - exact E.
Qed.

Section Renorm.
Variable o : options.
Variable shape : list nat.
Variable dX : list R.
Variable Hmax : R.
Hypothesis Hnd : List.length shape <= 2.
Hypothesis HdX : forall d, d < List.length shape -> (0 < nth d dX 0 <= Hmax)%R.
Hypothesis Hbig : (Hmax * (INR (cells shape) + 1) < maxDouble)%R.
Hypothesis HmaxP : (0 < Hmax)%R.
Variable u : nat -> vec.
Let lev (k : nat) (c : list nat) : R := u (flat shape c) k.
Hypothesis Hphi : forall k c, V o - LSET o <= k < V o -> inside shape c -> (lev k c <= 0 \/ doubleEpsilon < lev k c)%R.
Hypothesis Hint : forall k, V o - LSET o <= k < V o -> has_interface shape (lev k).

Theorem renormalize_lemma : exists u', renormalize_levelsets o u dX shape = Ok u' /\
  forall c, inside shape c ->
    (forall k, k < V o - LSET o -> u' (flat shape c) k = u (flat shape c) k) /\
    (forall k, V o - LSET o <= k < V o -> same_side (u (flat shape c) k) (u' (flat shape c) k)).
Proof.
  unfold renormalize_levelsets. set (K := V o - LSET o).
  assert (HK : K + LSET o = V o) by (unfold K, V; lia).
  destruct (for_loop_inv (fun i v => forall c, inside shape c ->
     (forall k, k < K \/ K + i <= k -> v (flat shape c) k = u (flat shape c) k) /\
     (forall k, K <= k < K + i -> same_side (u (flat shape c) k) (v (flat shape c) k))) (LSET o) 0
     (fun i u => phi <- distance shape dX (fun c => u c (K + i)) ;; set_col (size_ shape) (K + i) phi u) u) as [s [E H]].
  - intros c Hc. split; [auto|]. intros k Hk. lia.
  - intros i v Hi Hv.
    assert (Same : forall c, inside shape c -> v (flat shape c) (K + i) = lev (K + i) c).
    { intros c Hc. apply (Hv c Hc). right. lia. }
    assert (Hp : forall j, j < size_ shape -> (v j (K + i)%nat <= 0 \/ doubleEpsilon < v j (K + i)%nat)%R).
    { intros j Hj. destruct (flat_surj shape j Hj) as [c [Hc <-]]. rewrite Same by exact Hc. apply Hphi; [lia|exact Hc]. }
    assert (Hb' : (Hmax * (INR (size_ shape) + 1) < maxDouble)%R) by (rewrite <- (cells_size shape); exact Hbig).
    destruct (fmm_main shape dX (fun c => v c (K + i)) Hmax HdX Hp Hb' HmaxP Hnd ltac:(lia)) as [b [D [Ed [Vb C]]]].
    { rewrite Ed. cbn [bind]. rewrite (set_col_ok _ _ _ _ _ Vb). eexists. split; [reflexivity|].
      intros c Hc. pose proof (flat_lt shape c Hc) as Lc. destruct (Hv c Hc) as [A B]. cbv beta.
      destruct (Nat.ltb_spec (flat shape c) (size_ shape)) as [_|X]; [|lia]. split.
      * intros k Hk. rewrite upd_other by lia. apply A. lia.
      * intros k Hk. destruct (Nat.eq_dec k (K + i)) as [-> |Nk].
        -- rewrite upd_same. destruct C as [[C _]|[_ C]].
           ++ exfalso. assert (Hi' : has_interface shape (fun c => v (flat shape c) (K + i))).
              { destruct (Hint (K + i) ltac:(lia)) as [[c1 [H1 Z]]|[d [c1 [c2 [H1 [H2 [Nn L]]]]]]].
                - left. exists c1. split; [exact H1|]. rewrite Same by exact H1. exact Z.
                - right. exists d, c1, c2. split; [exact H1|]. split; [exact H2|]. split; [exact Nn|].
                  rewrite !Same by assumption. exact L. }
              destruct (interface_F0 shape dX (fun c => v c (K + i)) Hmax Hnd HdX Hi') as [j [Hj Fj]].
              rewrite (C j Hj) in Fj. discriminate.
           ++ destruct (C _ Lc) as [S _]. rewrite Same in S by exact Hc. exact S.
        -- rewrite upd_other by exact Nk. apply B. lia. }
  - exists s. split; [exact E|]. intros c Hc. destruct (H c Hc) as [A B]. split.
    + intros k Hk. apply A. left. exact Hk.
    + intros k Hk. apply B. lia.
Qed.

Lemma material_same_side Q Q' : (forall k, V o - LSET o <= k < V o -> same_side (Q k) (Q' k)) ->
  get_material_index o Q' = get_material_index o Q.
Proof.
  intros H. unfold get_material_index. f_equal.
  assert (forall l, (forall k, In k l -> V o - LSET o <= k < V o) ->
    filter (fun i => if Rle_dec 0 (Q' i) then true else false) l = filter (fun i => if Rle_dec 0 (Q i) then true else false) l).
  { induction l as [|k l IH]; intros Hl; [reflexivity|]. cbn [filter]. rewrite IH by (intros; apply Hl; right; assumption).
    destruct (H k (Hl k (or_introl eq_refl))) as [A [B C]].
    destruct (Rle_dec 0 (Q k)) as [X|X], (Rle_dec 0 (Q' k)) as [Y|Y]; try reflexivity; exfalso.
    - apply Y. destruct X as [X|X]; [left; auto|]. rewrite C by (symmetry; exact X). lra.
    - assert (Q' k < 0)%R by (apply B; lra). lra. }
  apply H0. intros k Hk. apply in_seq in Hk. unfold V in *. lia.
Qed.
End Renorm.
