(** The safety and order lemmas in the words of FillSpec; the loop over the materials. *)
From Coq Require Import Reals ZArith Lra Psatz Permutation.
From Verif Require Import Base Options Mat3 PhysModel FmmModel LevelSetModel UtilsModel UtilsProof FillModel FmmSpec FmmProof6 FillSpec FillProof FillProof2 FillProof3 FillProof4 FillProof5 FillProof6 FillProof7.
Import List ListNotations.
Open Scope nat_scope.

Lemma trunc_nat z k : (INR k <= z < INR k + 1)%R -> trunc z = Z.of_nat k.
Proof.
  intros [H1 H2]. pose proof (pos_INR k). unfold trunc. destruct (Rle_dec 0 z); [|lra]. destruct (base_Int_part z) as [I1 I2].
  rewrite INR_IZR_INZ in *. assert (IZR (Int_part z) < IZR (Z.of_nat k + 1))%R by (rewrite plus_IZR; lra).
  assert (IZR (Z.of_nat k - 1) < IZR (Int_part z))%R by (rewrite minus_IZR; lra). apply lt_IZR in H0, H3. lia.
Qed.
Lemma trunc_zero z : (-1 < z < 1)%R -> trunc z = 0%Z.
Proof.
  intros [H1 H2]. unfold trunc. destruct (Rle_dec 0 z).
  - pose proof (trunc_nat z 0) as E. cbn in E. unfold trunc in E. destruct (Rle_dec 0 z); [|lra]. apply E. lra.
  - pose proof (trunc_nat (- z) 0) as E. cbn in E. unfold trunc in E. destruct (Rle_dec 0 (- z)); [|lra]. rewrite E by lra. reflexivity.
Qed.

Section Cells.
Variables (dX : nat -> R) (nX : list nat).
Hypothesis D12 : dim12 nX.
Hypothesis HdX : forall d, d < List.length nX -> (0 < dX d)%R.

Lemma lin_flat C v : inside nX C -> (forall d, d < List.length nX -> v d = Z.of_nat (nth d C 0)) -> lin nX v = Z.of_nat (flat nX C).
Proof.
  intros HC H. destruct D12 as [D|D].
  - destruct nX as [|nx [|? ?]]; try discriminate D. destruct (inside1 _ _ HC) as [x [-> Hx]]. cbn [lin flat cells]. rewrite (H 0) by (cbn; lia). cbn [nth]. lia.
  - destruct nX as [|nx [|ny [|? ?]]]; try discriminate D. destruct (inside2 _ _ _ HC) as [x [y [-> [Hx Hy]]]]. cbn [lin flat cells].
    rewrite (H 0), (H 1) by (cbn; lia). cbn [nth]. lia.
Qed.
Lemma trunc_cell x (k : nat) D : (0 < D)%R -> ((k = 0%nat /\ - D < x < D) \/ INR k * D <= x < (INR k + 1) * D)%R -> trunc (x / D) = Z.of_nat k.
Proof.
  intros HD H. assert (I : (0 < / D)%R) by (apply Rinv_0_lt_compat; exact HD). assert (E : (x = x / D * D)%R) by (field; lra).
  set (y := (x / D)%R) in *. rewrite E in H. clearbody y. destruct H as [[-> H]|H].
  - apply trunc_zero. split; apply Rmult_lt_reg_r with D; lra.
  - apply trunc_nat. split; [apply Rmult_le_reg_r with D|apply Rmult_lt_reg_r with D]; lra.
Qed.
Lemma cell_of_lin C p nr s K : inside nX C -> cell_of dX nX (probe_point dX C p nr s) K ->
  lin nX (probe (coords nX (flat nX C)) p nr dX s) = Z.of_nat (flat nX K).
Proof.
  intros HC [HK H]. apply lin_flat; [exact HK|]. intros d Hd. unfold probe. rewrite coords_flat by assumption.
  apply trunc_cell; [apply HdX; exact Hd|]. specialize (H d Hd). unfold probe_point in H.
  replace (/ 2)%R with (1 / 2)%R by lra. exact H.
Qed.
Lemma cell_coord y m : (0 < 1)%R -> 1 <= m -> (-1 < y < INR m)%R -> exists k, k < m /\ ((k = 0%nat /\ -1 < y < 1) \/ INR k <= y < INR k + 1)%R.
Proof.
  intros _ Hm H. destruct (Rlt_dec y 0) as [L|L].
  - exists 0. split; [lia|]. left. split; [reflexivity|lra].
  - apply Rnot_lt_le in L. destruct (base_Int_part y) as [I1 I2].
    assert (0 <= Int_part y)%Z.
    { apply Z.lt_succ_r. apply lt_IZR. rewrite succ_IZR. lra. }
    exists (Z.to_nat (Int_part y)). rewrite INR_IZR_INZ, Z2Nat.id by assumption. split.
    + apply INR_lt. rewrite INR_IZR_INZ, Z2Nat.id by assumption. lra.
    + right. lra.
Qed.
Lemma in_box_cell x : (forall d, d < List.length nX -> 1 <= nth d nX 0) -> in_box dX nX x -> exists K, cell_of dX nX x K.
Proof.
  intros Hp H.
  assert (G : forall d, d < List.length nX -> exists k, k < nth d nX 0 /\ ((k = 0%nat /\ - dX d < x d < dX d) \/ INR k * dX d <= x d < (INR k + 1) * dX d)%R).
  { intros d Hd. specialize (H d Hd). specialize (HdX d Hd). assert (E : (x d = x d / dX d * dX d)%R) by (field; lra).
    set (y := (x d / dX d)%R) in *. rewrite E in *. clearbody y. destruct (cell_coord y (nth d nX 0) ltac:(lra) (Hp d Hd)) as [k [Hk K]].
    { split; apply Rmult_lt_reg_r with (dX d); lra. }
    exists k. split; [exact Hk|]. destruct K as [[-> K]|K]; [left|right].
    - split; [reflexivity|]. split; nra.
    - split; nra. }
  destruct D12 as [D|D].
  - destruct nX as [|nx [|? ?]]; try discriminate D. destruct (G 0 ltac:(cbn; lia)) as [k [Hk K]]. exists [k]. split; [cbn; auto|].
    intros [|d] Hd; [exact K|cbn in Hd; lia].
  - destruct nX as [|nx [|ny [|? ?]]]; try discriminate D. destruct (G 0 ltac:(cbn; lia)) as [k [Hk K]]. destruct (G 1 ltac:(cbn; lia)) as [l [Hl K2]].
    exists [k; l]. split; [cbn; auto|]. intros [|[|d]] Hd; [exact K|exact K2|cbn in Hd; lia].
Qed.
End Cells.

Section Words.
Variable o : options.
Variable star : vec -> vec -> matpar -> matpar -> R -> (nat -> R) -> res vec.
Variables (dX : nat -> R) (nX : list nat) (MPs : list matpar) (dt : R).
Hypothesis D12 : dim12 nX.
Hypothesis HdX : forall d, d < List.length nX -> (0 < dX d)%R.
Notation n := (size_ nX).
Variables (m : buf Z) (mat : nat) (P : nat -> R) (dphi : nat -> nat -> R) (G : nat -> vec).
Notation T := (fun c => get_material_index o (G c)).
Notation PC := (fun C => P (flat nX C)).
Notation dC := (fun C => dphi (flat nX C)).
Notation TC := (fun C => get_material_index o (G (flat nX C))).
Notation solid := (fun C => (PC C <= 0)%R /\ (List.length nX = 2 -> ~ isolated nX PC C)).
Notation ghost := (fun C => inside nX C /\ (0 < PC C)%R /\ exists C', adjacent nX C C' /\ solid C').
Hypothesis Em : find_interface_cells (full n P) nX = Ok m.
Hypothesis Hfill : forall C, ghost C -> fillable dX nX PC dC TC mat C.
Hypothesis Hstar : forall a b ML MR t nr, is_ok (star a b ML MR t nr).
Hypothesis Hmat : mat < List.length MPs.
Hypothesis HL : LSET o < List.length MPs.

Lemma get_labels : exists M, tot n m M /\ labels nX P M.
Proof.
  destruct (labels_ex nX P D12) as [m' [M [E [A B]]]]. rewrite E in Em. injection Em as ->. eauto.
Qed.
Lemma all_good M : tot n m M -> labels nX P M -> forall C, inside nX C -> M (flat nX C) = 1%Z -> good dX nX M mat P dphi T C.
Proof.
  intros Tm HM C HC E. apply (l_one nX P M HM C HC) in E. destruct E as [HP HS].
  destruct (Hfill C (conj HC (conj HP HS))) as [F1 [F2 [F3 [F4 F5]]]].
  unfold good. exists (unit_of (List.length nX) (dphi (flat nX C))). split.
  { destruct (normal_ex _ _ F1) as [nr En]. rewrite En. f_equal.
    unfold normal in En. destruct (Req_EM_T _ 0); [discriminate|]. injection En as <-. reflexivity. }
  split; [auto|]. destruct F5 as [[K [HK HT]]|[D HB]].
  - left. intros i l r E. unfold boundary_inds in E. injection E as <- <- <-.
    destruct HK as [HK|HK]; [left|right]; rewrite (cell_of_lin dX nX D12 HdX C _ _ _ K HC HK), Nat2Z.id; exact HT.
  - right. split; [exact D|]. split; [exact HB|]. destruct HS as [C' [A S]]. exists C'. split; [exact A|].
    apply (l_next nX P M HM C C' HC A HP S).
Qed.
Lemma T_bound c : T c < List.length MPs.
Proof. pose proof (material_bound o (G c)). cbv beta. lia. Qed.
Lemma plans_ok M : tot n m M -> labels nX P M -> forall c, c < n -> is_ok (plan_of dX nX MPs m M mat P dphi T c).
Proof.
  intros Tm HM c Hc. destruct (flat_surj nX c Hc) as [C [HC <-]].
  apply (plan_safe dX nX MPs D12 HdX m M mat P dphi T Tm Hmat (fun c _ => T_bound c) C HC). intros E. apply all_good; assumption.
Qed.
Lemma boundary_safe l : (forall c, In c l -> c < n) -> exists g', fill_boundary_order o star dX nX MPs dt l m mat (full n P) dphi (full n G) = Ok g'.
Proof.
  intros Hl. destruct get_labels as [M [Tm HM]].
  destruct (exec_all_safe o star dX nX MPs dt m M mat P dphi T Hstar l ltac:(intros c I; apply plans_ok; auto) G) as [G' E].
  pose proof (order_plan o star dX nX MPs dt D12 m M mat P dphi Tm T l Hl (full n G) G (tot_full n G) (fun c _ => eq_refl)) as X.
  rewrite E in X. destruct X as [g' [X _]]. eauto.
Qed.

(** ** order *)
Hypothesis Hcons : forall C, inside nX C -> (PC C <= 0)%R <-> TC C = mat.
Hypothesis Hsep : forall C C' K, ghost C -> ghost C' -> C <> C' -> written dX nX PC dC TC mat C K ->
  ~ written dX nX PC dC TC mat C' K /\ ~ cell_of dX nX (point_at dX nX PC dC 1 C') K.
Lemma plan_words M C p : tot n m M -> labels nX P M -> inside nX C -> plan_of dX nX MPs m M mat P dphi T (flat nX C) = Ok (Some p) ->
  ghost C /\ (forall k, writes p k -> exists K, inside nX K /\ k = flat nX K /\ written dX nX PC dC TC mat C K) /\
  (exists K, inside nX K /\ pl_right p = flat nX K /\ cell_of dX nX (point_at dX nX PC dC 1 C) K) /\
  (exists K, inside nX K /\ pl_left p = flat nX K /\ TC K = mat).
Proof.
  intros Tm HM HC E. assert (Hc : flat nX C < n) by (apply flat_lt; exact HC).
  destruct (plan_parts dX nX MPs D12 m M mat P dphi Tm T (flat nX C) p Hc E) as [Q1 [Q2 [nr [i [L [Q3 [Q4 [Q5 [Q6 [Q7 Q8]]]]]]]]]].
  apply (l_one nX P M HM C HC) in Q1. assert (HG : ghost C) by tauto. split; [exact HG|].
  destruct (Hfill C HG) as [F1 [F2 [F3 [F4 F5]]]].
  assert (En : nr = unit_of (List.length nX) (dphi (flat nX C))).
  { unfold normal in Q3. destruct (Req_EM_T _ 0); [discriminate|]. injection Q3 as <-. reflexivity. }
  subst nr. unfold boundary_inds in Q4. injection Q4 as E1 E2 E3.
  assert (Hp : forall d, d < List.length nX -> 1 <= nth d nX 0).
  { intros d Hd. pose proof (C_lt dX nX C D12 HdX HC d Hd). lia. }
  destruct (in_box_cell dX nX D12 HdX _ Hp F3) as [KI HI]. destruct (in_box_cell dX nX D12 HdX _ Hp F4) as [KR HR].
  rewrite (cell_of_lin dX nX D12 HdX C _ _ _ KI HC HI) in E1. rewrite (cell_of_lin dX nX D12 HdX C _ _ _ KR HC HR) in E3.
  split; [|split].
  - intros k [->|W].
    + exists C. split; [exact HC|]. split; [exact Q2|]. left. reflexivity.
    + destruct (Q6 k W) as [W1 [W2 W3]]. exists KI. split; [apply HI|]. assert (k = flat nX KI) by lia. subst k. split; [reflexivity|].
      right. split; [exact HI|exact W3].
  - exists KR. split; [apply HR|]. split; [lia|exact HR].
  - destruct (flat_surj nX _ Q8) as [K [HK EK]]. exists K. split; [exact HK|]. split; [auto|].
    destruct Q7 as [Q7|Q7]; [cbv beta; rewrite EK; exact Q7|]. rewrite <- EK in Q7. apply (Hcons K HK). apply (l_minus nX P M HM K HK Q7).
Qed.
Lemma plans_apart M C C' p q : tot n m M -> labels nX P M -> inside nX C -> inside nX C' -> C <> C' ->
  plan_of dX nX MPs m M mat P dphi T (flat nX C) = Ok (Some p) -> plan_of dX nX MPs m M mat P dphi T (flat nX C') = Ok (Some q) -> apart p q.
Proof.
  intros Tm HM HC HC' NE Ep Eq.
  destruct (plan_words M C p Tm HM HC Ep) as [G1 [W1 [[R1 [IR1 [ER1 HR1]]] [L1 [IL1 [EL1 HL1]]]]]].
  destruct (plan_words M C' q Tm HM HC' Eq) as [G2 [W2 [[R2 [IR2 [ER2 HR2]]] [L2 [IL2 [EL2 HL2]]]]]].
  assert (NM : forall C K, ghost C -> inside nX K -> written dX nX PC dC TC mat C K -> TC K <> mat).
  { intros A K GA HK [->|[_ N]]; [|exact N]. intros Q. apply (Hcons A (proj1 GA)) in Q. destruct GA as [_ [GA _]]. cbv beta in *. lra. }
  split; [|split].
  - intros k A B. destruct (W1 k A) as [K [IK [EK HK]]]. destruct (W2 k B) as [K2 [IK2 [EK2 HK2]]].
    assert (K2 = K) by (apply (flat_inj nX); congruence). subst K2. exact (proj1 (Hsep C C' K G1 G2 NE HK) HK2).
  - intros k A. destruct (W1 k A) as [K [IK [EK HK]]]. split; intros Q.
    + apply (NM C K G1 IK HK). assert (K = L2) by (apply (flat_inj nX); congruence). subst K. exact HL2.
    + apply (proj2 (Hsep C C' K G1 G2 NE HK)). assert (K = R2) by (apply (flat_inj nX); congruence). subst K. exact HR2.
  - intros k A. destruct (W2 k A) as [K [IK [EK HK]]]. split; intros Q.
    + apply (NM C' K G2 IK HK). assert (K = L1) by (apply (flat_inj nX); congruence). subst K. exact HL1.
    + apply (proj2 (Hsep C' C K G2 G1 (not_eq_sym NE) HK)). assert (K = R1) by (apply (flat_inj nX); congruence). subst K. exact HR1.
Qed.
Lemma boundary_schedule order : Permutation (seq 0 n) order -> exists G' g g',
  fill_boundary_order o star dX nX MPs dt (seq 0 n) m mat (full n P) dphi (full n G) = Ok g /\ tot n g G' /\
  fill_boundary_order o star dX nX MPs dt order m mat (full n P) dphi (full n G) = Ok g' /\ tot n g' G'.
Proof.
  intros HP. destruct get_labels as [M [Tm HM]].
  assert (B0 : forall c, In c (seq 0 n) -> c < n) by (intros c I; apply in_seq in I; lia).
  assert (B1 : forall c, In c order -> c < n) by (intros c I; apply B0; apply (Permutation_in _ (Permutation_sym HP)); exact I).
  destruct (exec_all_safe o star dX nX MPs dt m M mat P dphi T Hstar (seq 0 n) ltac:(intros c I; apply plans_ok; auto) G) as [G' E].
  (* outside the grid nothing is planned twice *)
  assert (E' : exec_all o star dX nX MPs dt m M mat P dphi T order G = Ok G').
  { clear B1. assert (X : forall l l', Permutation l l' -> (forall c, In c l -> c < n) -> NoDup l -> forall G G2,
      exec_all o star dX nX MPs dt m M mat P dphi T l G = Ok G2 -> exec_all o star dX nX MPs dt m M mat P dphi T l' G = Ok G2).
    { apply (exec_all_perm_in o star dX nX MPs dt m M mat P dphi T n).
      intros c c' p q Hc Hc' NE Ep Eq. destruct (flat_surj nX c Hc) as [C [HC EC]]. destruct (flat_surj nX c' Hc') as [C' [HC' EC']].
      subst c c'. apply (plans_apart M C C' p q Tm HM HC HC'); [congruence|exact Ep|exact Eq]. }
    apply (X _ _ HP B0 (seq_NoDup n 0)). exact E. }
  pose proof (order_plan o star dX nX MPs dt D12 m M mat P dphi Tm T (seq 0 n) B0 (full n G) G (tot_full n G) (fun c _ => eq_refl)) as X1.
  pose proof (order_plan o star dX nX MPs dt D12 m M mat P dphi Tm T order B1 (full n G) G (tot_full n G) (fun c _ => eq_refl)) as X2.
  rewrite E in X1. rewrite E' in X2. destruct X1 as [g [X1 Y1]]. destruct X2 as [g' [X2 Y2]]. exists G', g, g'. auto.
Qed.
End Words.

(** ** the loop over the materials *)
Lemma put_ok {A} (l : list A) i x l' : put l i x = Ok l' -> i < List.length l /\ List.length l' = List.length l /\
  nth_error l' i = Some x /\ forall j, j <> i -> nth_error l' j = nth_error l j.
Proof.
  unfold put. destruct (Nat.ltb_spec i (List.length l)) as [L|L]; [|discriminate]. intros E. assert (E' : l' = firstn i l ++ x :: skipn (S i) l) by congruence. subst l'. clear E. split; [exact L|].
  assert (F : List.length (firstn i l) = i) by (rewrite firstn_length; lia). split; [|split].
  - rewrite app_length, F. change (List.length (x :: skipn (S i) l)) with (S (List.length (skipn (S i) l))). rewrite (skipn_length (S i) l). lia.
  - rewrite nth_error_app2 by lia. rewrite F, Nat.sub_diag. reflexivity.
  - intros j Hj. destruct (lt_dec j i) as [Q|Q].
    + rewrite nth_error_app1 by lia. clear -Q. revert i Q. revert j. induction l as [|a l IH]; intros j i Q.
      * rewrite firstn_nil. reflexivity.
      * destruct i as [|i]; [lia|]. cbn [firstn]. destruct j as [|j]; [reflexivity|]. cbn [nth_error]. apply IH. lia.
    + rewrite nth_error_app2 by lia. rewrite F. destruct (j - i) as [|k] eqn:E; [lia|]. cbn [nth_error].
      replace j with (S i + k) by lia. clear. revert l. generalize (S i). intros a. induction a as [|a IH]; intros l; [reflexivity|]. destruct l as [|x l]; [destruct k; reflexivity|]. cbn. apply IH.
Qed.
Section Loop.
Variable o : options.
Variable star : vec -> vec -> matpar -> matpar -> R -> (nat -> R) -> res vec.
Variables (dX : nat -> R) (nX : list nat) (MPs : list matpar) (dt : R) (dXl : list R).
(** what the loop does for material [mat], from the grids and masks before it *)
Definition material_done (ncell nmat : nat) (u : nat -> vec) (g0 g1 : list (buf vec)) (m1 : list (nat -> bool)) (mat : nat) : Prop :=
  exists Mp, nth_error MPs mat = Some Mp /\
  (mp_void Mp = true -> nth_error g1 mat = nth_error g0 mat /\ nth_error m1 mat = Some (fun _ => false)) /\
  (mp_void Mp = false -> exists g mk, fill_material o star dX nX MPs dt dXl ncell nmat mat u = Ok (g, mk) /\
     nth_error g1 mat = Some g /\ nth_error m1 mat = Some mk).
Lemma ghost_loop ncell u grids masks u' grids' masks' :
  fill_ghost_cells o star dX nX MPs dt dXl ncell u grids masks = Ok (u', grids', masks') ->
  renormalize_levelsets o u dXl nX = Ok u' /\ List.length grids' = List.length grids /\ List.length masks' = List.length masks /\
  forall mat, mat < List.length grids -> material_done ncell (List.length grids) u' grids grids' masks' mat.
Proof.
  intros E. unfold fill_ghost_cells in E. apply bind_ok in E. destruct E as [u1 [E1 E]]. apply bind_ok in E. destruct E as [[gs ms] [E2 E]].
  injection E as -> -> ->. split; [exact E1|].
  pose proof (for_loop_inv_ok (fun i (s : list (buf vec) * list (nat -> bool)) =>
    List.length (fst s) = List.length grids /\ List.length (snd s) = List.length masks /\
    (forall j, i <= j -> nth_error (fst s) j = nth_error grids j) /\
    forall j, j < i -> material_done ncell (List.length grids) u' grids (fst s) (snd s) j) _ _ _ _ _ E2) as X. cbn [fst snd] in X.
  destruct X as [X1 [X2 [_ X4]]].
  - split; [reflexivity|]. split; [reflexivity|]. split; [auto|]. intros j Hj. lia.
  - clear E2. intros i [g m] [g1 m1] Hi [I1 [I2 [I3 I4]]] E. cbn [fst snd] in *. apply bind_ok in E. destruct E as [Mp [EM E]].
    unfold get in EM. destruct (nth_error MPs i) as [Mp'|] eqn:EM'; [|discriminate]. injection EM as ->.
    assert (Keep : forall j g2 m2, j < i -> nth_error g2 j = nth_error g j -> nth_error m2 j = nth_error m j ->
      material_done ncell (List.length grids) u' grids g2 m2 j).
    { intros j g2 m2 Hj Q1 Q2. destruct (I4 j Hj) as [Mj [A [B C]]]. exists Mj. rewrite Q1, Q2. auto. }
    destruct (mp_void Mp) eqn:EV.
    + apply bind_ok in E. destruct E as [m2 [P2 E]]. injection E as <- <-. apply put_ok in P2. destruct P2 as [A1 [A2 [A3 A4]]].
      split; [exact I1|]. split; [congruence|]. split; [intros j Hj; apply I3; lia|]. intros j Hj.
      destruct (Nat.eq_dec j i) as [->|N]; [|apply Keep; [lia|reflexivity|apply A4; exact N]].
      exists Mp. split; [exact EM'|]. split; [|congruence]. intros _. split; [apply I3; lia|exact A3].
    + apply bind_ok in E. destruct E as [[gm mk] [F E]]. apply bind_ok in E. destruct E as [g2 [P1 E]]. apply bind_ok in E. destruct E as [m2 [P2 E]].
      injection E as <- <-. apply put_ok in P1, P2. destruct P1 as [B1 [B2 [B3 B4]]], P2 as [A1 [A2 [A3 A4]]].
      split; [congruence|]. split; [congruence|]. split; [intros j Hj; rewrite B4 by lia; apply I3; lia|]. intros j Hj.
      destruct (Nat.eq_dec j i) as [->|N]; [|apply Keep; [lia|apply B4; exact N|apply A4; exact N]].
      exists Mp. split; [exact EM'|]. split; [congruence|]. intros _. exists gm, mk. rewrite I1 in F. auto.
  - split; [exact X1|]. split; [exact X2|]. intros mat Hm. apply X4. lia.
Qed.
End Loop.
