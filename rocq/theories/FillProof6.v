(** The filling of the boundary cells: what it reads and writes, safety, and independence of the order. *)
From Coq Require Import Reals ZArith Lra Permutation FunctionalExtensionality.
From Verif Require Import Base Options Mat3 PhysModel FmmModel LevelSetModel UtilsModel UtilsProof FillModel FmmSpec FmmProof6 FillSpec FillProof FillProof2 FillProof3 FillProof4 FillProof5.
Import List ListNotations.
Open Scope nat_scope.

Lemma mat_tl o q r : tl_eq o q r -> get_material_index o q = get_material_index o r.
Proof.
  intros H. unfold get_material_index. f_equal. apply filter_ext_in. intros k I. apply in_seq in I. rewrite H by lia. reflexivity.
Qed.
Section Bnd.
Variable o : options.
Variable star : vec -> vec -> matpar -> matpar -> R -> (nat -> R) -> res vec.
Variables (dX : nat -> R) (nX : list nat) (MPs : list matpar) (dt : R).
Hypothesis D12 : dim12 nX.
Notation n := (size_ nX).
Notation ndim := (List.length nX).
Variables (m : buf Z) (M : nat -> Z) (mat : nat) (P : nat -> R) (dphi : nat -> nat -> R).
Hypothesis Tm : tot n m M.
Notation phi := (full n P).

(** the cells read and written are determined by the level sets alone, [T] is the material of each cell *)
Variable T : nat -> nat.
Definition chk (z : Z) : res nat := if (z <? 0)%Z then UB "out of range read" else if Nat.ltb (Z.to_nat z) n then Ok (Z.to_nat z) else UB "out of range read".
Definition fallback (inds : nat -> nat) (nr : nat -> R) (indn : Z) : res (nat * (nat -> R)) :=
  if Nat.ltb ndim 2 then UB "fill_boundary_inner: n(1)" else
  let n0 := sgn (nr 0) in let n1 := sgn (nr 1) in
  let ax0 : nat -> R := fun d => if Nat.eqb d 0 then IZR n0 else 0%R in
  let ax1 : nat -> R := fun d => if Nat.eqb d 0 then 0%R else IZR n1 in
  let at0 := lin nX (fun d => if Nat.eqb d 0 then (Z.of_nat (inds 0%nat) - n0)%Z else Z.of_nat (inds 1%nat)) in
  let at1 := lin nX (fun d => if Nat.eqb d 0 then Z.of_nat (inds 0%nat) else (Z.of_nat (inds 1%nat) - n1)%Z) in
  ' (Lind, n') <-
    (if Rlt_dec (Rabs (nr 1)) (Rabs (nr 0)) then
       k <- chk at0 ;; Ok (if Nat.eqb (T k) mat then (at0, ax0) else (at1, ax1))
     else
       k <- chk at1 ;; Ok (if Nat.eqb (T k) mat then (at1, ax1) else (at0, ax0))) ;;
  k <- chk Lind ;;
  k <- chk (if Nat.eqb (T k) mat then Lind else indn) ;;
  Ok (k, n').
Record plan := mkplan { pl_own : nat; pl_left : nat; pl_right : nat; pl_n : nat -> R; pl_ML : matpar; pl_MR : matpar; pl_extra : option nat }.
Definition indn_of (c : nat) : res Z := match nX with [nx; ny] => neighbor_index m (c / ny) (c mod ny) nx ny (-1) | _ => Ok (-1)%Z end.
Definition plan_of (c : nat) : res (option plan) :=
  if Z.eqb (M c) 1 then
    indn <- indn_of c ;;
    match normal ndim (dphi c) with
    | None => UB "cast of a NaN"
    | Some nr =>
      let '(interf, L, Rr) := boundary_inds (coords nX c) (P c) nr dX nX in
      r <- chk Rr ;; i <- chk interf ;;
      ' (ql, n') <- (if Nat.eqb (T i) mat then Ok (i, nr) else
         l <- chk L ;; if Nat.eqb (T l) mat then Ok (l, nr) else fallback (coords nX c) nr indn) ;;
      ML <- get MPs mat ;; MR <- get MPs (T r) ;;
      Ok (Some (mkplan c ql r n' ML MR (if Nat.eqb (T i) mat then None else Some i)))
    end
  else Ok None.
Definition exec (p : option plan) (G : nat -> vec) : res (nat -> vec) :=
  match p with
  | None => Ok G
  | Some p =>
    Q <- star (G (pl_left p)) (G (pl_right p)) (pl_ML p) (pl_MR p) dt (pl_n p) ;;
    let G1 := upd G (pl_own p) (put_head o (G (pl_own p)) Q) in
    Ok (match pl_extra p with None => G1 | Some i => upd G1 i (put_head o (G1 i) Q) end)
  end.
Definition types (G : nat -> vec) : Prop := forall c, c < n -> get_material_index o (G c) = T c.

Lemma chk_rd {A} (g : buf A) G z : tot n g G -> rdZ g z = (k <- chk z ;; Ok (G k)).
Proof.
  intros Tg. unfold rdZ, chk. destruct (Z.ltb_spec z 0); [reflexivity|]. destruct (Nat.ltb_spec (Z.to_nat z) n) as [L|L]; cbn [bind].
  - apply (tot_rd n); assumption.
  - unfold rd. rewrite (proj1 Tg). destruct (Nat.ltb_spec (Z.to_nat z) n); [lia|reflexivity].
Qed.
Lemma chk_ok z k : chk z = Ok k -> k < n /\ z = Z.of_nat k.
Proof.
  unfold chk. destruct (Z.ltb_spec z 0); [discriminate|]. destruct (Nat.ltb_spec (Z.to_nat z) n); [|discriminate].
  intros [= <-]. split; [assumption|]. rewrite Z2Nat.id by lia. reflexivity.
Qed.
Lemma chk_in k : k < n -> chk (Z.of_nat k) = Ok k.
Proof.
  intros H. unfold chk. destruct (Z.ltb_spec (Z.of_nat k) 0); [lia|]. rewrite Nat2Z.id. destruct (Nat.ltb_spec k n); [reflexivity|lia].
Qed.
Lemma chk_mat g G z : tot n g G -> types G -> mat_at o g z = (k <- chk z ;; Ok (T k)).
Proof.
  intros Tg HT. unfold mat_at. rewrite (chk_rd g G z Tg). destruct (chk z) as [k| | |] eqn:E; cbn [bind]; try reflexivity.
  apply chk_ok in E. rewrite HT by apply E. reflexivity.
Qed.

Lemma fallback_eq g G inds nr indn : tot n g G -> types G ->
  left_fallback o nX g inds mat nr indn = (' (k, n') <- fallback inds nr indn ;; Ok (G k, n')).
Proof.
  intros Tg HT. unfold left_fallback, fallback. destruct (Nat.ltb ndim 2); [reflexivity|]. cbv zeta.
  set (at0 := lin nX _). set (at1 := lin nX _).
  assert (Tail : forall (Lind : Z) (n' : nat -> R),
    (k <- mat_at o g Lind ;; q <- rdZ g (if Nat.eqb k mat then Lind else indn) ;; Ok (q, n')) =
    (' (k, n'0) <- (k <- chk Lind ;; k <- chk (if Nat.eqb (T k) mat then Lind else indn) ;; Ok (k, n')) ;; Ok (G k, n'0))).
  { intros Lind n'. rewrite (chk_mat g G Lind Tg HT). destruct (chk Lind) as [k| | |]; cbn [bind]; try reflexivity.
    rewrite (chk_rd g G _ Tg). destruct (chk (if Nat.eqb (T k) mat then Lind else indn)); cbn [bind]; reflexivity. }
  destruct (Rlt_dec (Rabs (nr 1)) (Rabs (nr 0))).
  - rewrite (chk_mat g G at0 Tg HT). destruct (chk at0) as [k| | |]; cbn [bind]; try reflexivity.
    destruct (Nat.eqb (T k) mat); apply Tail.
  - rewrite (chk_mat g G at1 Tg HT). destruct (chk at1) as [k| | |]; cbn [bind]; try reflexivity.
    destruct (Nat.eqb (T k) mat); apply Tail.
Qed.

(** [r] is the outcome [e] up to the representation of the grid *)
Definition same_res (r : res (buf vec)) (e : res (nat -> vec)) : Prop :=
  match e with Ok G => exists g, r = Ok g /\ tot n g G | UB w => r = UB w | Throw w => r = Throw w | NoFuel => r = NoFuel end.

Lemma cell_plan c g G : c < n -> tot n g G -> types G ->
  same_res (fill_boundary_cell o star dX nX MPs dt m mat phi dphi c g) (p <- plan_of c ;; exec p G).
Proof.
  intros Hc Tg HT. unfold fill_boundary_cell, plan_of. rewrite (tot_rd _ _ _ _ Tm Hc). cbn [bind].
  destruct (Z.eqb (M c) 1); [|cbn; exists g; auto].
  fold (indn_of c). destruct (indn_of c) as [indn| | |]; cbn [bind]; try reflexivity.
  rewrite rd_full by exact Hc. cbn [bind]. destruct (normal ndim (dphi c)) as [nr|]; [|reflexivity].
  unfold fill_boundary_inner. destruct (boundary_inds (coords nX c) (P c) nr dX nX) as [[interf L] Rr].
  rewrite (lin_coords nX D12 c Hc).
  rewrite (chk_rd g G Rr Tg). destruct (chk Rr) as [r| | |] eqn:Er; cbn [bind]; try reflexivity. cbv zeta.
  rewrite (chk_mat g G interf Tg HT). destruct (chk interf) as [i| | |] eqn:Ei; cbn [bind]; try reflexivity.
  apply chk_ok in Er, Ei. destruct Er as [Hr Er], Ei as [Hi Ei].
  assert (X : (if Nat.eqb (T i) mat then QL <- rdZ g interf ;; Ok (QL, nr) else
      mL <- mat_at o g L ;; if Nat.eqb mL mat then QL <- rdZ g L ;; Ok (QL, nr) else left_fallback o nX g (coords nX c) mat nr indn) =
    (' (ql, n') <- (if Nat.eqb (T i) mat then Ok (i, nr) else
         l <- chk L ;; if Nat.eqb (T l) mat then Ok (l, nr) else fallback (coords nX c) nr indn) ;; Ok (G ql, n'))).
  { destruct (Nat.eqb (T i) mat).
    - rewrite (chk_rd g G interf Tg), Ei, chk_in by exact Hi. reflexivity.
    - rewrite (chk_mat g G L Tg HT). destruct (chk L) as [l| | |] eqn:El; cbn [bind]; try reflexivity.
      destruct (Nat.eqb (T l) mat); [|apply fallback_eq; assumption].
      rewrite (chk_rd g G L Tg), El. reflexivity. }
  rewrite X. clear X.
  destruct (if Nat.eqb (T i) mat then Ok (i, nr) else _) as [[ql n']| | |]; cbn [bind]; try reflexivity.
  destruct (get MPs mat) as [ML| | |]; cbn [bind]; try reflexivity.
  rewrite (HT r Hr). destruct (get MPs (T r)) as [MR| | |]; cbn [bind]; try reflexivity.
  cbn [exec pl_left pl_right pl_ML pl_MR pl_n pl_own pl_extra].
  destruct (star (G ql) (G r) ML MR dt n') as [Q| | |]; cbn [bind]; try reflexivity.
  rewrite (chk_rd g G _ Tg), chk_in by exact Hc. cbn [bind]. unfold wrZ at 1. destruct (Z.ltb_spec (Z.of_nat c) 0); [lia|]. rewrite Nat2Z.id.
  destruct (tot_wr n g G c (put_head o (G c) Q) Tg Hc) as [g1 [E1 T1]]. rewrite E1. cbn [bind].
  assert (HT1 : types (upd G c (put_head o (G c) Q))).
  { intros k Hk. rewrite <- (HT k Hk). unfold upd. destruct (Nat.eqb_spec k c) as [->|N]; [|reflexivity]. apply mat_tl, put_tl. }
  rewrite (chk_mat g1 _ interf T1 HT1), Ei, chk_in by exact Hi. cbn [bind]. destruct (Nat.eqb (T i) mat).
  - cbn. exists g1. auto.
  - rewrite (chk_rd g1 _ _ T1), chk_in by exact Hi. cbn [bind]. unfold wrZ. destruct (Z.ltb_spec (Z.of_nat i) 0); [lia|]. rewrite Nat2Z.id.
    destruct (tot_wr n g1 _ i (put_head o (upd G c (put_head o (G c) Q) i) Q) T1 Hi) as [g2 [E2 T2]]. rewrite E2. cbn. exists g2. auto.
Qed.

Lemma exec_types p G G' : types G -> exec p G = Ok G' -> types G'.
Proof.
  intros HT E. destruct p as [p|]; [|injection E as <-; exact HT]. cbn [exec] in E.
  destruct (star _ _ _ _ _ _) as [Q| | |]; try discriminate. cbn [bind] in E. injection E as <-.
  assert (HT1 : types (upd G (pl_own p) (put_head o (G (pl_own p)) Q))).
  { intros k Hk. rewrite <- (HT k Hk). unfold upd. destruct (Nat.eqb_spec k (pl_own p)) as [->|N]; [|reflexivity]. apply mat_tl, put_tl. }
  destruct (pl_extra p) as [i|]; [|exact HT1]. intros k Hk. rewrite <- (HT1 k Hk). unfold upd at 1. destruct (Nat.eqb_spec k i) as [->|N]; [|reflexivity]. apply mat_tl, put_tl.
Qed.
(** only the own cell and the extra cell are written, and only their material components *)
Lemma exec_frame p G G' k : exec (Some p) G = Ok G' -> k <> pl_own p -> pl_extra p <> Some k -> G' k = G k.
Proof.
  cbn [exec]. destruct (star _ _ _ _ _ _) as [Q| | |]; try discriminate. cbn [bind]. intros [= <-] N1 N2.
  destruct (pl_extra p) as [i|]; rewrite ?upd_other; try assumption; try reflexivity; congruence.
Qed.
Lemma exec_tl p G G' k : exec p G = Ok G' -> tl_eq o (G' k) (G k).
Proof.
  destruct p as [p|]; [|intros [= <-] j _; reflexivity].
  cbn [exec]. destruct (star _ _ _ _ _ _) as [Q| | |]; try discriminate. cbn [bind]. intros [= <-].
  assert (A : forall k, tl_eq o (upd G (pl_own p) (put_head o (G (pl_own p)) Q) k) (G k)).
  { intros j. unfold upd. destruct (Nat.eqb_spec j (pl_own p)) as [->|N]; [apply put_tl|intros ? _; reflexivity]. }
  destruct (pl_extra p) as [i|]; [|apply A]. unfold upd at 1. destruct (Nat.eqb_spec k i) as [->|N]; [|apply A].
  intros j Hj. rewrite put_tl by exact Hj. apply A. exact Hj.
Qed.

Fixpoint exec_all (l : list nat) (G : nat -> vec) : res (nat -> vec) :=
  match l with [] => Ok G | c :: l => p <- plan_of c ;; G <- exec p G ;; exec_all l G end.
Lemma order_plan l : (forall c, In c l -> c < n) -> forall g G, tot n g G -> types G ->
  same_res (fill_boundary_order o star dX nX MPs dt l m mat phi dphi g) (exec_all l G).
Proof.
  induction l as [|c l IH]; intros Hl g G Tg HT; [exists g; auto|]. unfold fill_boundary_order. cbn [fold_res exec_all].
  pose proof (cell_plan c g G (Hl c (or_introl eq_refl)) Tg HT) as X. destruct (plan_of c) as [p| | |]; cbn [bind] in *; try (rewrite X; reflexivity).
  destruct (exec p G) as [G1| | |] eqn:E; cbn [bind same_res] in *; try (rewrite X; reflexivity).
  destruct X as [g1 [E1 T1]]. rewrite E1. cbn [bind]. apply (IH (fun c I => Hl c (or_intror I)) g1 G1 T1). apply (exec_types p G G1 HT E).
Qed.

(** ** independence of the order *)
Definition writes (p : plan) (k : nat) : Prop := k = pl_own p \/ pl_extra p = Some k.
Definition apart (p q : plan) : Prop :=
  (forall k, writes p k -> ~ writes q k) /\ (forall k, writes p k -> k <> pl_left q /\ k <> pl_right q) /\
  (forall k, writes q k -> k <> pl_left p /\ k <> pl_right p).
Definition write (p : plan) (Q : vec) (G : nat -> vec) : nat -> vec :=
  let G1 := upd G (pl_own p) (put_head o (G (pl_own p)) Q) in
  match pl_extra p with None => G1 | Some i => upd G1 i (put_head o (G1 i) Q) end.
Lemma write_other p Q G k : ~ writes p k -> write p Q G k = G k.
Proof.
  intros H. unfold write. unfold writes in H.
  destruct (pl_extra p) as [i|]; rewrite ?upd_other; try reflexivity; intros ->; apply H; auto.
Qed.
Lemma write_local p Q G G' k : writes p k -> (forall j, writes p j -> G j = G' j) -> write p Q G k = write p Q G' k.
Proof.
  intros H E. unfold write. unfold writes in *.
  assert (E0 := E (pl_own p) (or_introl eq_refl)). 
  destruct (pl_extra p) as [i|].
  - assert (Ei := E i (or_intror eq_refl)). unfold upd. destruct (Nat.eqb_spec k i) as [->|N].
    + destruct (Nat.eqb_spec i (pl_own p)); [rewrite E0|rewrite Ei]; reflexivity.
    + destruct (Nat.eqb_spec k (pl_own p)) as [->|N2]; [rewrite E0; reflexivity|]. destruct H as [H|H]; [contradiction|congruence].
  - destruct H as [->|H]; [|discriminate]. rewrite !upd_same, E0. reflexivity.
Qed.
Lemma writes_dec p k : {writes p k} + {~ writes p k}.
Proof.
  unfold writes. destruct (Nat.eq_dec k (pl_own p)) as [->|N]; [left; auto|].
  destruct (pl_extra p) as [i|]; [destruct (Nat.eq_dec i k) as [->|N2]; [left; auto|right; intros [A|A]; congruence]|right; intros [A|A]; congruence].
Qed.
Lemma exec_commute p q G G1 G2 : apart p q -> exec (Some p) G = Ok G1 -> exec (Some q) G1 = Ok G2 ->
  exists G1', exec (Some q) G = Ok G1' /\ exec (Some p) G1' = Ok G2.
Proof.
  intros [A1 [A2 A3]] E1 E2. cbn [exec] in *.
  destruct (star (G (pl_left p)) (G (pl_right p)) _ _ _ _) as [Q| | |] eqn:S1; try discriminate. cbn [bind] in E1.
  assert (W1 : G1 = write p Q G) by (injection E1 as <-; reflexivity). clear E1.
  assert (L : G1 (pl_left q) = G (pl_left q)) by (rewrite W1; apply write_other; intros W; apply A2 in W; tauto).
  assert (Rr : G1 (pl_right q) = G (pl_right q)) by (rewrite W1; apply write_other; intros W; apply A2 in W; tauto).
  rewrite L, Rr in E2. destruct (star (G (pl_left q)) (G (pl_right q)) _ _ _ _) as [Q'| | |] eqn:S2; try discriminate. cbn [bind] in *.
  assert (W2 : G2 = write q Q' G1) by (injection E2 as <-; reflexivity). clear E2.
  exists (write q Q' G). split; [reflexivity|].
  rewrite !write_other by (intros W; apply A3 in W; tauto). rewrite S1. cbn [bind].
  f_equal. change (write p Q (write q Q' G) = G2). subst G2 G1. apply functional_extensionality. intros k.
  destruct (writes_dec p k) as [Wp|Wp].
  - rewrite (write_other q) by (apply A1; exact Wp). apply write_local; [exact Wp|]. intros j Hj. apply write_other. apply A1. exact Hj.
  - rewrite write_other by exact Wp. destruct (writes_dec q k) as [Wq|Wq].
    + apply write_local; [exact Wq|]. intros j Hj. symmetry. apply write_other. intros W. apply (A1 j W Hj).
    + rewrite !write_other by assumption. reflexivity.
Qed.
Lemma exec_all_perm_in B : (forall c c' p q, c < B -> c' < B -> c <> c' -> plan_of c = Ok (Some p) -> plan_of c' = Ok (Some q) -> apart p q) ->
  forall l l', Permutation l l' -> (forall c, In c l -> c < B) -> NoDup l -> forall G G2, exec_all l G = Ok G2 -> exec_all l' G = Ok G2.
Proof.
  intros HA l l' HP. induction HP as [|c l l' HP IH|c c' l|l l2 l3 H1 IH1 H2 IH2]; intros HB ND G G2 E.
  - exact E.
  - cbn [exec_all] in *. apply bind_ok in E. destruct E as [p [Ep E]]. rewrite Ep. cbn [bind].
    apply bind_ok in E. destruct E as [G1 [E1 E]]. rewrite E1. cbn [bind].
    apply IH; [intros k I; apply HB; right; exact I|inversion ND; assumption|exact E].
  - cbn [exec_all] in *. apply bind_ok in E. destruct E as [p [Ep E]]. apply bind_ok in E. destruct E as [G1 [E1 E]].
    apply bind_ok in E. destruct E as [q [Eq E]]. apply bind_ok in E. destruct E as [G1' [E2 E]].
    rewrite Eq. cbn [bind]. assert (NE : c' <> c) by (inversion ND as [|? ? N _]; subst; intros ->; apply N; left; reflexivity).
    assert (Bc : c < B) by (apply HB; right; left; reflexivity). assert (Bc' : c' < B) by (apply HB; left; reflexivity).
    destruct p as [p|]; destruct q as [q|].
    + destruct (exec_commute p q G G1 G1' (HA _ _ _ _ Bc' Bc NE Ep Eq) E1 E2) as [G3 [F1 F2]].
      rewrite F1. cbn [bind]. rewrite Ep. cbn [bind]. rewrite F2. exact E.
    + injection E2 as <-. cbn [exec bind]. rewrite Ep. cbn [bind]. rewrite E1. exact E.
    + injection E1 as <-. rewrite E2. cbn [bind]. rewrite Ep. cbn [bind exec]. exact E.
    + injection E1 as <-. injection E2 as <-. cbn [exec bind]. rewrite Ep. exact E.
  - apply IH2; [intros k I; apply HB; apply (Permutation_in _ (Permutation_sym H1)); exact I|apply (Permutation_NoDup H1); exact ND|]. apply IH1; assumption.
Qed.

(** the parts of a plan *)
Lemma indn_label c z : c < n -> indn_of c = Ok z -> z = (-1)%Z \/ exists k, k < n /\ M k = (-1)%Z /\ z = Z.of_nat k.
Proof.
  intros Hc E. unfold indn_of in E. destruct D12 as [D|D].
  - destruct nX as [|nx [|? ?]]; try discriminate D. injection E as <-. auto.
  - destruct nX as [|nx [|ny [|? ?]]] eqn:En; try discriminate D. rewrite <- En in *.
    destruct (nb_label_spec nX m M c (-1)%Z D12 Hc Tm) as [r [Er Hr]].
    assert (Er' : neighbor_index m (c / ny) (c mod ny) nx ny (-1) = Ok r) by (rewrite En in Er; exact Er).
    rewrite Er' in E. injection E as <-. destruct Hr as [[k [I [Ek ->]]]|[-> _]]; [|auto]. right. exists k.
    split; [apply (nbs_sym nX c k D12 Hc I)|auto].
Qed.
Lemma plan_parts c p : c < n -> plan_of c = Ok (Some p) -> M c = 1%Z /\ pl_own p = c /\
  exists nr interf L, normal ndim (dphi c) = Some nr /\
    boundary_inds (coords nX c) (P c) nr dX nX = (interf, L, Z.of_nat (pl_right p)) /\ pl_right p < n /\
    (forall i, pl_extra p = Some i -> i < n /\ interf = Z.of_nat i /\ T i <> mat) /\
    (T (pl_left p) = mat \/ M (pl_left p) = (-1)%Z) /\ pl_left p < n.
Proof.
  intros Hc E. unfold plan_of in E. destruct (Z.eqb_spec (M c) 1) as [E1|]; [|discriminate]. split; [exact E1|].
  apply bind_ok in E. destruct E as [indn [Ein E]]. apply (indn_label c indn Hc) in Ein.
  destruct (normal ndim (dphi c)) as [nr|] eqn:En; [|discriminate].
  destruct (boundary_inds (coords nX c) (P c) nr dX nX) as [[interf L] Rr] eqn:Eb.
  apply bind_ok in E. destruct E as [r [Er E]]. apply bind_ok in E. destruct E as [i [Ei E]].
  apply chk_ok in Er, Ei. destruct Er as [Hr Er], Ei as [Hi Ei].
  apply bind_ok in E. destruct E as [[ql n'] [Eq E]]. apply bind_ok in E. destruct E as [ML [_ E]].
  apply bind_ok in E. destruct E as [MR [_ E]]. injection E as <-. cbn [pl_own pl_right pl_extra pl_left].
  split; [reflexivity|]. exists nr, interf, L. split; [reflexivity|]. split; [rewrite <- Er; exact Eb|]. split; [exact Hr|]. split.
  - intros i'. destruct (Nat.eqb_spec (T i) mat); [discriminate|]. intros [= <-]. auto.
  - destruct (Nat.eqb_spec (T i) mat) as [Q|Q]; [injection Eq as <- <-; auto|].
    apply bind_ok in Eq. destruct Eq as [l [El Eq]]. apply chk_ok in El.
    destruct (Nat.eqb_spec (T l) mat) as [Q2|Q2]; [injection Eq as <- <-; split; [auto|apply El]|].
    unfold fallback in Eq. destruct (Nat.ltb ndim 2); [discriminate|]. cbv zeta in Eq.
    apply bind_ok in Eq. destruct Eq as [[Lind n''] [_ Eq]]. apply bind_ok in Eq. destruct Eq as [k [Ek Eq]].
    apply bind_ok in Eq. destruct Eq as [k2 [Ek2 Eq]]. injection Eq as <- <-. apply chk_ok in Ek, Ek2.
    destruct Ek2 as [Hk2 Ek2], Ek as [Hk Ek]. split; [|exact Hk2].
    destruct (Nat.eqb_spec (T k) mat) as [Q3|Q3].
    + left. replace k2 with k by lia. exact Q3.
    + right. destruct Ein as [->|[k3 [_ [Q4 ->]]]]; [lia|]. replace k2 with k3 by lia. exact Q4.
Qed.
End Bnd.
