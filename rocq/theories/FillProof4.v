(** All rounds of the ghost filling: labels, values and index safety. *)
From Coq Require Import Reals ZArith Lra.
From Verif Require Import Base Options Mat3 PhysModel FmmModel LevelSetModel UtilsModel UtilsProof FillModel FmmSpec FmmProof6 FillSpec FillProof FillProof2 FillProof3.
Import List ListNotations.
Open Scope nat_scope.

Section Rounds.
Variables (o : options) (dX : nat -> R) (nX : list nat) (dphi : nat -> nat -> R).
Hypothesis D12 : dim12 nX.
Notation n := (size_ nX).
Variables (M0 : nat -> Z) (G0 : nat -> vec).
Hypothesis Hle : forall c, c < n -> (M0 c <= 1)%Z.
Notation seed := (fun C => M0 (flat nX C) = 1%Z).
Notation free := (fun C => M0 (flat nX C) = 0%Z).
Notation filled := (filled o dX nX dphi M0 G0).
Notation vals := (vals o dX nX dphi M0 G0).

Definition bfs (K : nat) (M : nat -> Z) : Prop := forall C, inside nX C -> let c := flat nX C in
  (M0 c <> 0%Z -> M c = M0 c) /\
  (M0 c = 0%Z ->
    (exists j, 1 <= j < K /\ M c = Z.of_nat (j + 1) /\ reaches nX seed free j C) \/
    (M c = 0%Z /\ forall j, j < K -> ~ walk nX seed free j C)).

Lemma walk_pos j C : walk nX seed free j C -> M0 (flat nX C) = 0%Z -> 1 <= j.
Proof. intros [C' I H|k C1 C2 W A F] E; [rewrite H in E; discriminate|lia]. Qed.
Lemma bfs_label K M C : 1 <= K -> bfs K M -> inside nX C -> M (flat nX C) = Z.of_nat K -> walk nX seed free (K - 1) C.
Proof.
  intros HK B HC E. destruct (B C HC) as [B1 B2]. destruct (Z.eq_dec (M0 (flat nX C)) 0) as [Z0|Z0].
  - destruct (B2 Z0) as [[j [Hj [Ej [W _]]]]|[Ez _]]; [|lia]. replace (K - 1) with j by lia. exact W.
  - specialize (B1 Z0). specialize (Hle (flat nX C) (flat_lt _ _ HC)). assert (K = 1) by lia. subst K. cbn. constructor; [exact HC|lia].
Qed.
Lemma bfs_step K M : 1 <= K -> bfs K M -> bfs (S K) (next_label nX (Z.of_nat K) M).
Proof.
  intros HK B C HC c. destruct (B C HC) as [B1 B2]. fold c in B1, B2. unfold next_label. split.
  - intros Z0. specialize (B1 Z0). unfold firesb, fr0. rewrite B1. destruct (Z.eqb_spec (M0 c) 0); [contradiction|]. reflexivity.
  - intros Z0. destruct (B2 Z0) as [[j [Hj [Ej Rj]]]|[Ez NW]].
    + left. exists j. split; [lia|]. split; [|exact Rj]. unfold firesb, fr0. rewrite Ej.
      destruct (Z.eqb_spec (Z.of_nat (j + 1)) 0); [lia|]. reflexivity.
    + destruct (firesb nX fr0 (Z.of_nat K) M c) eqn:F.
      * left. exists K. split; [lia|]. split; [lia|]. apply firesb_spec in F. destruct F as [_ [k [I Ek]]].
        apply (adj_nbs nX C k D12 HC) in I. destruct I as [C' [A <-]]. split.
        -- pose proof (bfs_label K M C' HK B (proj1 A) Ek) as W. replace K with (S (K - 1)) by lia.
           econstructor; [exact W| |exact Z0]. apply adj_sym; assumption.
        -- intros k W. destruct (le_lt_dec K k); [assumption|]. exfalso. exact (NW k l W).
      * right. split; [exact Ez|]. intros j Hj W. assert (j = K) by (destruct (Nat.eq_dec j K); [assumption|]; exfalso; apply (NW j); [lia|exact W]).
        subst j. destruct K as [|K]; [lia|].
        assert (X : exists C', walk nX seed free K C' /\ adjacent nX C C' ).
        { inversion W as [|? C' ? W' A' F' E1 E2]. subst. exists C'. split; [exact W'|].
          destruct W' as [C' I' S'|k C1 C' W1 A1 F1]; (apply (adj_sym nX C' C); [|exact A']); [exact I'|apply A1]. }
        destruct X as [C' [W' A]].
        assert (F' : firesb nX fr0 (Z.of_nat (S K)) M c = true).
        { apply firesb_spec. split; [unfold fr0; rewrite Ez; reflexivity|]. exists (flat nX C').
          split; [apply (adj_nbs nX C _ D12 HC); exists C'; auto|].
          destruct (B C' (proj1 A)) as [D1 D2]. cbv zeta in D1, D2. destruct (Z.eq_dec (M0 (flat nX C')) 0) as [Z1|Z1].
          - destruct (D2 Z1) as [[j [Hj' [Ej [Wj Lj]]]]|[_ NW']]; [|exfalso; apply (NW' K); [lia|exact W']].
            rewrite Ej. f_equal. specialize (Lj K W'). destruct (Nat.eq_dec j K) as [->|N]; [lia|]. exfalso.
            apply (NW (S j)); [lia|]. econstructor; [exact Wj|apply adj_sym; assumption|exact Z0].
          - rewrite (D1 Z1). destruct W' as [C' I' S'|k C1 C' W1 A1 F1]; [rewrite S'; reflexivity|contradiction]. }
        congruence.
Qed.
Lemma next_label_range N0 M c : M c <> next_label nX N0 M c -> next_label nX N0 M c = (N0 + 1)%Z.
Proof. unfold next_label. destruct (firesb nX fr0 N0 M c); [reflexivity|congruence]. Qed.

(** isolated cells next to a layer that has been used are filled *)
Definition isos (K : nat) (G : nat -> vec) (M : nat -> Z) : Prop := forall c k, c < n -> List.length nX = 2 -> M0 c = (-2)%Z ->
  In k (nbs nX c) -> (1 <= M k < Z.of_nat K)%Z -> filled (G c).
Definition quiet (G : nat -> vec) (M : nat -> Z) : Prop := forall c, c < n ->
  (List.length nX = 1 \/ forall k, In k (nbs nX c) -> (M k < 1)%Z) -> M0 c = (-2)%Z -> G c = G0 c.

Lemma rounds K : forall g m g' m' G M, 1 <= K -> tot n g G -> tot n m M -> vals G M -> bfs K M -> isos K G M ->
  layer o dX nX dphi (Z.of_nat K) (g, m) = Ok (g', m') ->
  exists G' M', tot n g' G' /\ tot n m' M' /\ vals G' M' /\ bfs (S K) M' /\ isos (S K) G' M'.
Proof.
  intros g m g' m' G M HK Tg Tm W B I E.
  destruct (layer_inv o dX nX dphi D12 M0 G0 (Z.of_nat K) g G m M g' m' ltac:(lia) Tg Tm W E) as [G' [T1 [T2 [W' [Kp Fl]]]]].
  exists G', (next_label nX (Z.of_nat K) M). split; [exact T1|]. split; [exact T2|]. split; [exact W'|].
  split; [apply bfs_step; assumption|]. intros c k Hc D2 Ei Ik Hk.
  assert (Em : M c = (-2)%Z).
  { destruct (flat_surj nX c Hc) as [C [HC <-]]. rewrite (proj1 (B C HC)); lia. }
  destruct (Z.eq_dec (M k) (Z.of_nat K)) as [Q|Q].
  - apply Fl; auto. split; [rewrite Em; reflexivity|]. exists k. auto.
  - assert (Hk' : (1 <= M k < Z.of_nat K)%Z).
    { destruct (Z.eq_dec (M k) (next_label nX (Z.of_nat K) M k)) as [Q2|Q2]; [lia|]. apply next_label_range in Q2. lia. }
    destruct (Classical_Prop.classic (fires nX fr2 (Z.of_nat K) M c)) as [F|F].
    + apply Fl; assumption.
    + rewrite Kp by assumption. apply (I c k); assumption.
Qed.

Lemma start_vals : vals G0 M0.
Proof.
  constructor; intros c Hc.
  - intros H. exists c. split; [split; [exact Hc|left; specialize (Hle c Hc); lia]|]. intros k _. reflexivity.
  - intros k _. reflexivity.
  - auto.
  - auto.
  - auto.
Qed.
Lemma start_bfs : bfs 1 M0.
Proof.
  intros C HC c. split; [auto|]. intros Z0. right. split; [exact Z0|]. intros j Hj W. apply walk_pos in W; [lia|exact Z0].
Qed.

Lemma all_rounds g m g' m' : tot n g G0 -> tot n m M0 -> fill_neighbor_cells o dX nX dphi (g, m) = Ok (g', m') ->
  exists G M, tot n g' G /\ tot n m' M /\ vals G M /\ bfs (1 + (10 * Options.N o - 1)) M /\ isos (1 + (10 * Options.N o - 1)) G M.
Proof.
  intros Tg Tm E. unfold fill_neighbor_cells, EXPANSION_FACTOR in E.
  pose proof (for_loop_inv_ok (fun K s => 1 <= K /\ exists G M, tot n (fst s) G /\ tot n (snd s) M /\ vals G M /\ bfs K M /\ isos K G M)
    _ _ _ _ _ E) as I. cbn [fst snd] in I. destruct I as [_ I].
  - split; [lia|]. exists G0, M0. split; [exact Tg|]. split; [exact Tm|]. split; [apply start_vals|]. split; [apply start_bfs|].
    intros c k _ _ _ _ Hk. lia.
  - intros K [g1 m1] [g2 m2] HK [K1 [G [M [T1 [T2 [W [B Is]]]]]]] E1. cbn [fst snd] in *. split; [lia|].
    apply (rounds K g1 m1 g2 m2 G M); assumption.
  - exact I.
Qed.

(** *** nothing is indexed out of range *)
(** the cells that a label can reach *)
Inductive wet : nat -> Prop :=
| wet_seed c : c < n -> M0 c = 1%Z -> wet c
| wet_step c k : c < n -> wet k -> In k (nbs nX c) -> fr2 (M0 c) = true -> wet c.
Hypothesis Hback : forall c, c < n -> fr2 (M0 c) = true -> wet c ->
  exists nrm, normal (List.length nX) (dphi c) = Some nrm /\ (0 <= back dX nX c nrm < Z.of_nat n)%Z.
Lemma rdZ_tot {A} (b : buf A) f z : tot n b f -> (0 <= z < Z.of_nat n)%Z -> rdZ b z = Ok (f (Z.to_nat z)).
Proof.
  intros T H. unfold rdZ. destruct (Z.ltb_spec z 0); [lia|]. apply (tot_rd n); [exact T|]. lia.
Qed.
Lemma fni_ok g G m M c indn : c < n -> tot n g G -> tot n m M -> fr2 (M0 c) = true -> wet c -> (0 <= indn < Z.of_nat n)%Z ->
  exists g', fill_neighbor_inner o dX nX g (dphi c) (coords nX c) m indn = Ok g'.
Proof.
  intros Hc Tg Tm F HW Hi. destruct (Hback c Hc F HW) as [nrm [En Hb]]. unfold fill_neighbor_inner. rewrite En.
  rewrite (lin_coords nX D12 c Hc). fold (back dX nX c nrm). rewrite (rdZ_tot m M _ Tm Hb). cbn [bind]. cbv zeta.
  rewrite (rdZ_tot g G) by (try exact Tg; destruct (_ <? 1)%Z; assumption). cbn [bind].
  rewrite (rdZ_tot g G) by (try exact Tg; lia). cbn [bind]. unfold wrZ. destruct (Z.ltb_spec (Z.of_nat c) 0); [lia|].
  rewrite Nat2Z.id. destruct (tot_wr n g G c (put_head o (G (Z.to_nat (Z.of_nat c))) (G (Z.to_nat (if (M (Z.to_nat (back dX nX c nrm)) <? 1)%Z then indn else back dX nX c nrm)))) Tg Hc) as [g' [E' _]].
  exists g'. rewrite Nat2Z.id in E'. exact E'.
Qed.
Definition safe_state (g : buf vec) (m : buf Z) : Prop :=
  (exists G, tot n g G) /\ exists M, tot n m M /\ (forall c, c < n -> fr2 (M c) = true -> fr2 (M0 c) = true) /\ (forall c, c < n -> (1 <= M c)%Z -> wet c).
Lemma nb_lt' c k : c < n -> In k (nbs nX c) -> k < n.
Proof. intros H I. apply (nbs_sym nX c k D12 H I). Qed.

Lemma cell_safe N0 c g m : (1 <= N0)%Z -> c < n -> safe_state g m -> (exists b, rd m c = Ok b /\ fr2 b = true) ->
  exists r, nb_label nX m c N0 = Ok r /\ ((-1 <? r)%Z = true ->
    exists m1 g1, wr m c (N0 + 1)%Z = Ok m1 /\ fill_neighbor_inner o dX nX g (dphi c) (coords nX c) m1 r = Ok g1 /\ safe_state g1 m1).
Proof.
  intros HN Hc [[G Tg] [M [Tm [HM HW]]]] [b [Eb Fb]]. rewrite (tot_rd _ _ _ _ Tm Hc) in Eb. injection Eb as <-.
  destruct (nb_label_spec nX m M c N0 D12 Hc Tm) as [r [Er Hr]]. exists r. split; [exact Er|]. intros L.
  assert (Hr' : (0 <= r < Z.of_nat n)%Z).
  { destruct Hr as [[k [I [_ ->]]]|[-> _]]; [|discriminate]. apply nb_lt' in I; [lia|exact Hc]. }
  assert (Wc : wet c).
  { destruct Hr as [[k [I [Q _]]]|[-> _]]; [|discriminate]. apply (wet_step c k Hc); [|exact I|apply HM; assumption].
    apply HW; [apply (nb_lt' c); assumption|lia]. }
  destruct (tot_wr n m M c (N0 + 1)%Z Tm Hc) as [m1 [E1 T1]].
  destruct (fni_ok g G m1 _ c r Hc Tg T1 (HM c Hc Fb) Wc Hr') as [g1 E2]. exists m1, g1. split; [exact E1|]. split; [exact E2|].
  split.
  - destruct (fni_inv o dX nX dphi D12 g G m1 _ c r g1 Hc Tg T1 E2) as [s [_ [T _]]]. eexists; exact T.
  - exists (upd M c (N0 + 1)%Z). split; [exact T1|]. split; intros k Hk; unfold upd; (destruct (Nat.eqb_spec k c) as [->|N]; [|auto]); [|auto].
    intros F. unfold fr2 in F. apply Bool.orb_true_iff in F. rewrite !Z.eqb_eq in F. lia.
Qed.
Lemma layer_safe N0 g m : (1 <= N0)%Z -> safe_state g m -> exists g' m', layer o dX nX dphi N0 (g, m) = Ok (g', m') /\ safe_state g' m'.
Proof.
  intros HN S0. destruct D12 as [D|D].
  - destruct nX as [|nx [|? ?]] eqn:En; try discriminate D. rewrite <- En in *.
    assert (Sz : size_ nX = nx) by (rewrite En; cbn; lia).
    destruct (for_loop_inv (fun k s => safe_state (fst s) (snd s)) nx 0 (layer_cell_1d o dX nX dphi nx N0) (g, m)) as [[g' m'] [E' S']].
    + exact S0.
    + intros k [g1 m1] Hk S1. cbn [fst snd] in *. unfold layer_cell_1d.
      destruct S1 as [Sg [M [Tm HM]]]. assert (Rk : rd m1 k = Ok (M k)) by (apply (tot_rd n); [exact Tm|lia]). rewrite Rk. cbn [bind].
      destruct (Z.eqb_spec (M k) 0) as [Q|Q]; [|exists (g1, m1); split; [reflexivity|]; split; [exact Sg|]; exists M; auto].
      destruct (cell_safe N0 k g1 m1 HN ltac:(lia)) as [r [Er Hr]].
      { split; [exact Sg|]. exists M. auto. }
      { exists (M k). split; [apply (tot_rd _ _ _ _ Tm); lia|]. rewrite Q. reflexivity. }
      assert (El : neighbor_1d nx k m1 N0 = Ok r) by (rewrite En in Er; exact Er). rewrite El. cbn [bind].
      destruct (-1 <? r)%Z eqn:L; [|exists (g1, m1); split; [reflexivity|]; split; [exact Sg|]; exists M; auto].
      destruct (Hr eq_refl) as [m2 [g2 [E1 [E2 S2]]]]. rewrite E1. cbn [bind]. rewrite E2. cbn [bind]. exists (g2, m2). auto.
    + exists g', m'. split; [rewrite En in *; exact E'|exact S'].
  - destruct nX as [|nx [|ny [|? ?]]] eqn:En; try discriminate D. rewrite <- En in *.
    assert (Sz : size_ nX = nx * ny) by (rewrite En; cbn; lia).
    destruct (for_loop_inv (fun k s => safe_state (fst (fst s)) (snd (fst s)) /\ (forall c, In c (snd s) -> c < n /\ fr2 (M0 c) = true))
      (nx * ny) 0 (layer_cell_2d o dX nX dphi nx ny N0) ((g, m), [])) as [[[g1 m1] isl] [E1 [S1 L1]]].
    + split; [exact S0|]. intros c [].
    + intros k [[g1 m1] isl] Hk [S1 L1]. cbn [fst snd] in *. unfold layer_cell_2d.
      destruct S1 as [Sg [M [Tm HM]]]. assert (Rk : rd m1 k = Ok (M k)) by (apply (tot_rd n); [exact Tm|lia]). rewrite Rk. cbn [bind].
      destruct ((M k =? 0)%Z || (M k =? -2)%Z)%bool eqn:Q.
      2:{ exists (g1, m1, isl). split; [reflexivity|]. split; [|exact L1]. split; [exact Sg|]; exists M; auto. }
      destruct (cell_safe N0 k g1 m1 HN ltac:(lia)) as [r [Er Hr]].
      { split; [exact Sg|]. exists M. auto. }
      { exists (M k). split; [apply (tot_rd _ _ _ _ Tm); lia|]. exact Q. }
      assert (El : neighbor_index m1 (k / ny) (k mod ny) nx ny N0 = Ok r) by (rewrite En in Er; exact Er). rewrite El. cbn [bind].
      destruct (-1 <? r)%Z eqn:L.
      2:{ exists (g1, m1, isl). split; [reflexivity|]. split; [|exact L1]. split; [exact Sg|]; exists M; auto. }
      destruct (Hr eq_refl) as [m2 [g2 [E1 [E2 S2]]]]. rewrite E1. cbn [bind]. rewrite E2. cbn [bind].
      eexists. split; [reflexivity|]. split; [exact S2|]. cbn [snd]. assert (FM : fr2 (M0 k) = true) by (apply (proj1 HM); [lia|exact Q]). intros c I.
      destruct (M k =? -2)%Z; [|auto]. apply in_app_iff in I. destruct I as [I|[<-|[]]]; [auto|]. split; [lia|exact FM].
    + cbn [fst snd] in *.
      assert (X : forall l, (forall c, In c l -> c < n /\ fr2 (M0 c) = true) -> forall m, safe_state g1 m ->
        exists m', fold_res (fun i m => wr m i (-2)%Z) l m = Ok m' /\ safe_state g1 m').
      { induction l as [|a l IH]; intros Hl m2 S2; [exists m2; auto|]. cbn [fold_res].
        destruct S2 as [Sg [M [Tm HM]]]. destruct (Hl a (or_introl eq_refl)) as [Ha Fa].
        destruct (tot_wr n m2 M a (-2)%Z Tm Ha) as [m3 [E3 T3]]. rewrite E3. cbn [bind].
        apply IH; [intros c I; apply Hl; right; exact I|]. split; [exact Sg|]. exists (upd M a (-2)%Z). split; [exact T3|].
        destruct HM as [HM HW]. split; intros c Hc; unfold upd; destruct (Nat.eqb_spec c a) as [->|N]; auto. lia. }
      destruct (X isl L1 m1 S1) as [m2 [E2 S2]]. exists g1, m2. split; [|exact S2].
      assert (E : layer o dX nX dphi N0 (g, m) = (' (g, m, isl) <- for_loop (nx * ny) 0 (layer_cell_2d o dX nX dphi nx ny N0) ((g, m), []) ;;
        m <- fold_res (fun i m => wr m i (-2)%Z) isl m ;; Ok (g, m))) by (rewrite En in *; reflexivity).
      rewrite E, E1. cbn [bind]. rewrite E2. reflexivity.
Qed.
Lemma rounds_safe g m : tot n g G0 -> tot n m M0 -> exists g' m', fill_neighbor_cells o dX nX dphi (g, m) = Ok (g', m').
Proof.
  intros Tg Tm. unfold fill_neighbor_cells.
  destruct (for_loop_inv (fun K s => 1 <= K /\ safe_state (fst s) (snd s)) (EXPANSION_FACTOR * Options.N o - 1) 1
    (fun N0 s => layer o dX nX dphi (Z.of_nat N0) s) (g, m)) as [[g' m'] [E' S']].
  - split; [lia|]. split; [exists G0; exact Tg|]. exists M0. split; [exact Tm|]. split; [auto|]. intros c Hc L. apply wet_seed; [exact Hc|]. pose proof (Hle c Hc). lia.
  - intros K [g1 m1] HK [K1 S1]. cbn [fst snd] in S1. destruct (layer_safe (Z.of_nat K) g1 m1 ltac:(lia) S1) as [g2 [m2 [E2 S2]]].
    exists (g2, m2). split; [exact E2|]. split; [lia|exact S2].
  - exists g', m'. exact E'.
Qed.
End Rounds.

(** ** the probe *)
Lemma trunc_range y m : 1 <= m -> (-1 < y)%R -> (y < INR m)%R -> (0 <= trunc y < Z.of_nat m)%Z.
Proof.
  intros Hm H1 H2. unfold trunc. destruct (Rle_dec 0 y) as [L|L].
  - destruct (base_Int_part y) as [A B]. split.
    + assert (IZR (-1) < IZR (Int_part y))%R by (change (IZR (-1)) with (-1)%R; lra). apply lt_IZR in H. lia.
    + rewrite INR_IZR_INZ in H2. apply lt_IZR. lra.
  - destruct (base_Int_part (- y)) as [A B].
    assert (IZR (Int_part (- y)) < IZR 1)%R by (change (IZR 1) with 1%R; lra). apply lt_IZR in H.
    assert (IZR (-1) < IZR (Int_part (- y)))%R by (change (IZR (-1)) with (-1)%R; lra). apply lt_IZR in H0.
    assert (Z0 : Int_part (- y) = 0%Z) by lia. rewrite Z0. split; [lia|].
    lia.
Qed.
