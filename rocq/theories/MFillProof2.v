(** One dimension, one interface: what the filling of the ghost cells of one material leaves in them. *)
From Coq Require Import Reals Lia Lra ZArith FunctionalExtensionality.
From Verif Require Import Base Options Mat3 PhysModel UtilsModel UtilsProof FmmModel LevelSetModel FillModel FmmSpec FmmProps FillSpec FillProof FillProof2 FillProof3 FillProof5 FillProof8 FillProps MFillProof.
Import List ListNotations.
Open Scope nat_scope.

Lemma rdZ_nat {A} n (b : buf A) f c : tot n b f -> c < n -> rdZ b (Z.of_nat c) = Ok (f c).
Proof. intros T Hc. unfold rdZ. destruct (Z.ltb_spec (Z.of_nat c) 0); [lia|]. rewrite Nat2Z.id. apply (tot_rd n); assumption. Qed.
Lemma wrZ_nat {A} n (b : buf A) f c v : tot n b f -> c < n -> exists b', wrZ b (Z.of_nat c) v = Ok b' /\ tot n b' (upd f c v).
Proof. intros T Hc. unfold wrZ. destruct (Z.ltb_spec (Z.of_nat c) 0); [lia|]. rewrite Nat2Z.id. apply tot_wr; assumption. Qed.
Lemma fold_one {A} (f : nat -> A -> res A) c s : forall l t, (forall i, In i l -> i <> c -> forall s, f i s = Ok s) -> ~ In c l -> t = s -> fold_res f l t = Ok s.
Proof.
  induction l as [|i l IH]; intros t H N ->; cbn [fold_res]; [reflexivity|]. rewrite H; [|left; reflexivity|intros ->; apply N; left; reflexivity]. cbn [bind].
  apply IH; [intros k Hk; apply H; right; exact Hk|intros X; apply N; right; exact X|reflexivity].
Qed.
Lemma fold_seq {A} (f : nat -> A -> res A) n c s : c < n -> (forall i, i < n -> i <> c -> forall s, f i s = Ok s) -> fold_res f (seq 0 n) s = f c s.
Proof.
  intros Hc H. replace n with (c + S (n - S c)) at 1 by lia. rewrite seq_app, fold_res_app. rewrite (fold_one f c s (seq 0 c)); [|intros i Hi; apply in_seq in Hi; apply H; lia|rewrite in_seq; lia|reflexivity].
  cbn [bind seq fold_res Nat.add]. destruct (f c s) as [t| | |]; cbn [bind]; try reflexivity. apply (fold_one f c t); [intros i Hi; apply in_seq in Hi; apply H; lia|rewrite in_seq; lia|reflexivity].
Qed.
Lemma put_head_twice o (q c q' : vec) : put_head o q (put_head o q' c) = put_head o q c.
Proof. apply functional_extensionality. intros k. unfold put_head, setseg. destruct (Nat.leb 0 k && Nat.ltb k (0 + (V o - LSET o)))%bool eqn:E; [|reflexivity]. rewrite !Nat.sub_0_r, E. reflexivity. Qed.
Lemma put_head_over o (q c : vec) : put_head o (put_head o q c) c = put_head o q c.
Proof. apply functional_extensionality. intros k. unfold put_head, setseg. destruct (Nat.leb 0 k && Nat.ltb k (0 + (V o - LSET o)))%bool eqn:E; reflexivity. Qed.
Lemma put_head_index o (q c : vec) : get_material_index o (put_head o q c) = get_material_index o q.
Proof.
  apply material_ext. intros k Hk. unfold put_head, setseg. destruct (Nat.ltb_spec k (0 + (V o - LSET o))); [lia|]. rewrite Bool.andb_false_r. reflexivity.
Qed.
Lemma restore_head o (q c : vec) : (forall k, V o - LSET o <= k -> c k = q k) -> setseg c (V o - LSET o) (LSET o) (fun k => q (V o - LSET o + k)) = c.
Proof.
  intros H. apply functional_extensionality. intros k. unfold setseg. destruct (Nat.leb_spec (V o - LSET o) k) as [L|L]; [|reflexivity]. destruct (Nat.ltb k _); cbn [andb]; [|reflexivity].
  replace (V o - LSET o + (k - (V o - LSET o))) with k by lia. symmetry. apply H, L.
Qed.

Lemma flat1d nx i : flat [nx] [i] = i.
Proof. cbn. lia. Qed.

Section Side.
Variable o : options.
Variable star : vec -> vec -> matpar -> matpar -> R -> (nat -> R) -> res vec.
Variables (dX : nat -> R) (dXl : list R) (MPs : list matpar) (dt : R).
Variables (nx j : nat) (h a : R) (left : bool) (nmat mat : nat) (u : nat -> vec) (phi : nat -> R).
Hypothesis Hnx : 3 <= nx.
Hypothesis Hj : j + 1 < nx.
Hypothesis Hh : (0 < h)%R.
Hypothesis HdX : dX 0 = h.
Hypothesis Ha : (0 < a < 1)%R.
(** the material is to the left or to the right of the point (j + a + 1/2) h *)
Definition sg : R := if left then 1%R else (-1)%R.
Hypothesis Hphi : forall i, i < nx -> phi i = (sg * (INR i - (INR j + a)) * h)%R.
(** how many cells outside the material a cell is *)
Definition depth (i : nat) : nat := if left then i - j else j + 1 - i.
Hypothesis HT : forall i, i < nx -> get_material_index o (u i) = mat <-> depth i = 0.
(** the last cell of the material and the first ghost cell; the cell of the interface point, and the one a cell further on the far side *)
Definition own : nat := if left then j else j + 1.
Definition seat : nat := if left then j + 1 else j.
Definition half : nat := if Rlt_dec a (1 / 2) then 0 else 1.
Definition far : nat := if left then j + half + 1 else j + half - 1.

Lemma sg_sq : (sg * sg = 1)%R.
Proof. clear. unfold sg. destruct left; ring. Qed.
Lemma seat_lt : seat < nx.
Proof. unfold seat. destruct left; lia. Qed.
Lemma own_lt : own < nx.
Proof. unfold own. destruct left; lia. Qed.
Lemma phi_neg i : i < nx -> depth i = 0 -> (phi i < 0)%R.
Proof.
  intros Hi D. rewrite Hphi by exact Hi. unfold depth, sg in *. destruct left.
  - pose proof (le_INR i j ltac:(lia)). nra.
  - pose proof (le_INR (j + 1) i ltac:(lia)) as X. rewrite plus_INR in X. cbn in X. nra.
Qed.
Lemma phi_pos i : i < nx -> depth i <> 0 -> (0 < phi i)%R.
Proof.
  intros Hi D. rewrite Hphi by exact Hi. unfold depth, sg in *. destruct left.
  - pose proof (le_INR (j + 1) i ltac:(lia)) as X. rewrite plus_INR in X. cbn in X. nra.
  - pose proof (le_INR i j ltac:(lia)). nra.
Qed.
(** the gradient is exact *)
Lemma gradient : exists dphi, finite_difference phi dX [nx] = Ok dphi /\ forall i, i < nx -> dphi i = fun _ => sg.
Proof.
  unfold finite_difference. destruct (Nat.ltb_spec nx 3); [lia|]. eexists. split; [reflexivity|]. intros i Hi. apply functional_extensionality. intros d. cbv zeta.
  assert (I : 1 <= inner_row nx i /\ inner_row nx i + 1 < nx) by (unfold inner_row; destruct (Nat.eqb_spec i 0); [lia|]; destruct (Nat.eqb_spec i (nx - 1)); lia).
  set (k := inner_row nx i) in *. rewrite !Hphi by lia. replace (INR (k + 1)) with (INR (k - 1) + 2)%R; [|replace (k + 1) with (k - 1 + 2) by lia; rewrite plus_INR; cbn; ring]. rewrite HdX. field. lra.
Qed.
Lemma normal_sg : normal 1 (fun _ => sg) = Some (fun _ => sg).
Proof.
  clear. unfold normal, norm2. cbn [seq fold_right]. rewrite sg_sq, Rplus_0_r. destruct (Req_EM_T 1 0); [lra|]. rewrite sqrt_1. f_equal. apply functional_extensionality. intros _. field.
Qed.
(** the labels *)
Definition lab (i : nat) : Z := if Nat.eqb i seat then 1%Z else if Nat.eqb i own then (-1)%Z else 0%Z.
Lemma labels : exists m, find_interface_cells (array nx phi) [nx] = Ok m /\ tot nx m lab.
Proof.
  destruct (interface_cells_1d nx phi) as [m [E [L H]]]. exists m. split; [exact E|]. apply stores_tot. split; [exact L|]. intros i Hi.
  destruct (H [i] ltac:(cbn; lia)) as [z [Rz [L1 [L2 L3]]]]. rewrite flat1d in Rz. rewrite Rz. f_equal. unfold on in *. rewrite flat1d in *.
  assert (ADJ : forall k, k < nx -> k = S i \/ i = S k -> adjacent [nx] [i] [k]).
  { intros k Hk [-> | ->]; (split; [cbn; lia|]); exists 0; [left|right]; constructor. }
  assert (MET : forall k, k < nx -> k = S i \/ i = S k -> (phi i * phi k <= 0)%R -> exists c', adjacent [nx] [i] c' /\ (phi i * phi (flat [nx] c') <= 0)%R).
  { intros k Hk K Q. exists [k]. rewrite flat1d. split; [apply ADJ; assumption|exact Q]. }
  pose proof (phi_neg own own_lt ltac:(unfold depth, own; destruct left; lia)) as NO. pose proof (phi_pos seat seat_lt ltac:(unfold depth, seat; destruct left; lia)) as PS.
  unfold lab. destruct (Nat.eqb_spec i seat) as [->|N1].
  - apply L1; [|exact PS]. apply (MET own own_lt); [unfold own, seat; destruct left; lia|nra].
  - destruct (Nat.eqb_spec i own) as [->|N2].
    + apply L2; [|lra]. apply (MET seat seat_lt); [unfold own, seat; destruct left; lia|nra].
    + apply L3. intros [c' [[I [d N]] Q]]. destruct (inside1 _ _ I) as [k [-> Hk]]. rewrite flat1d in Q. apply nbr1 in N. destruct N as [_ N].
      assert (NK : k = S i \/ i = S k) by (destruct N as [N|[k' [Ek N]]]; injection N as N; lia).
      assert (SAME : depth i = 0 <-> depth k = 0) by (unfold depth, own, seat in *; destruct left; lia).
      destruct (Nat.eq_dec (depth i) 0) as [D|D].
      * pose proof (phi_neg i Hi D). pose proof (phi_neg k Hk ltac:(tauto)). nra.
      * pose proof (phi_pos i Hi D). pose proof (phi_pos k Hk ltac:(tauto)). nra.
Qed.
(** where the probes land *)
Lemma probe_at s : probe (coords [nx] seat) (phi seat) (fun _ => sg) dX s 0 = trunc (INR j + a + / 2 + s * sg).
Proof.
  unfold probe. cbn [coords]. rewrite HdX, Hphi by exact seat_lt. f_equal.
  replace ((INR seat + / 2) * h - sg * (INR seat - (INR j + a)) * h * sg + s * h * sg)%R with (((INR seat + / 2) * h - (sg * sg) * (INR seat - (INR j + a)) * h + s * h * sg))%R by ring. rewrite sg_sq. field. lra.
Qed.
Lemma trunc_at (k : nat) (t : R) : (INR k + INR 0 <= INR j + a + / 2 + t < INR k + 1)%R -> trunc (INR j + a + / 2 + t) = Z.of_nat k.
Proof. intros H. apply trunc_nat. cbn [INR] in H. lra. Qed.
Lemma interf_at : probe (coords [nx] seat) (phi seat) (fun _ => sg) dX 0 0 = Z.of_nat (j + half).
Proof.
  rewrite probe_at. apply trunc_at. rewrite plus_INR. unfold half. destruct (Rlt_dec a (1 / 2)); cbn [INR]; lra.
Qed.
Lemma far_at : probe (coords [nx] seat) (phi seat) (fun _ => sg) dX 1 0 = Z.of_nat far.
Proof.
  rewrite probe_at. unfold far, sg, half. destruct left; destruct (Rlt_dec a (1 / 2)).
  1,2: apply trunc_at; rewrite !plus_INR; cbn [INR]; lra.
  - destruct j as [|i]; [apply trunc_zero; cbn [INR]; lra|]. apply trunc_nat. replace (S i + 0 - 1) with i by lia. rewrite S_INR. cbn [INR]. lra.
  - apply trunc_at. replace (j + 1 - 1) with j by lia. cbn [INR]. lra.
Qed.
(** the left probe is read only if the cell of the interface point is not of the material *)
Lemma near_at : depth (j + half) <> 0 -> probe (coords [nx] seat) (phi seat) (fun _ => sg) dX (-1) 0 = Z.of_nat own.
Proof.
  rewrite probe_at. unfold depth, own, sg, half. destruct left; destruct (Rlt_dec a (1 / 2)); intros D; try lia; apply trunc_at; rewrite ?plus_INR; cbn [INR]; lra.
Qed.
Lemma interf_lt : j + half < nx.
Proof. unfold half. destruct (Rlt_dec a (1 / 2)); lia. Qed.

Section Room.
Hypothesis Hfar : far < nx.
Variables (ML MR : matpar) (Qs : vec).
Hypothesis HML : nth_error MPs mat = Some ML.
Hypothesis HMR : nth_error MPs (get_material_index o (u far)) = Some MR.
Hypothesis HQ : star (u own) (u far) ML MR dt (fun _ => sg) = Ok Qs.
Lemma inner_ok g : tot nx g u -> exists g', fill_boundary_inner o star dX [nx] MPs dt g (coords [nx] seat) (phi seat) mat (fun _ => sg) (-1) = Ok g' /\ tot nx g' (upd u seat (put_head o (u seat) Qs)).
Proof.
  intros T. unfold fill_boundary_inner, boundary_inds, lin. cbv zeta. rewrite interf_at, far_at. rewrite (rdZ_nat nx _ _ _ T Hfar). cbn [bind].
  unfold mat_at. rewrite (rdZ_nat nx _ _ _ T interf_lt). cbn [bind].
  assert (X : forall p : Z, (p = Z.of_nat own \/ depth (j + half) = 0) ->
     (if Nat.eqb (get_material_index o (u (j + half))) mat then QL <- Ok (u (j + half)) ;; Ok (QL, (fun _ : nat => sg))
      else mL <- (q <- rdZ g p ;; Ok (get_material_index o q)) ;; (if Nat.eqb mL mat then QL <- rdZ g p ;; Ok (QL, (fun _ : nat => sg)) else left_fallback o [nx] g (coords [nx] seat) mat (fun _ => sg) (-1))) =
     Ok (u own, (fun _ : nat => sg))).
  { intros p Hp. destruct (Nat.eqb_spec (get_material_index o (u (j + half))) mat) as [E|E].
    - apply HT in E; [|exact interf_lt]. cbn [bind]. replace (j + half) with own; [reflexivity|]. revert E. unfold depth, own, half. destruct left; destruct (Rlt_dec a (1 / 2)); lia.
    - destruct Hp as [->|D]; [|exfalso; apply E, HT; [exact interf_lt|exact D]]. rewrite (rdZ_nat nx _ _ _ T own_lt). cbn [bind].
      destruct (Nat.eqb_spec (get_material_index o (u own)) mat) as [_|E2]; [reflexivity|]. exfalso. apply E2, HT; [exact own_lt|]. unfold depth, own. destruct left; lia. }
  cbn [bind] in X |- *. rewrite X by (destruct (Nat.eq_dec (depth (j + half)) 0) as [D|D]; [right; exact D|left; apply near_at, D]). cbn [bind]. unfold UtilsModel.get. rewrite HML. cbn [bind]. rewrite HMR. cbn [bind]. rewrite HQ. cbn [bind].
  change (Z.of_nat (coords [nx] seat 0)) with (Z.of_nat seat). rewrite (rdZ_nat nx _ _ _ T seat_lt). cbn [bind].
  destruct (wrZ_nat nx g u seat (put_head o (u seat) Qs) T seat_lt) as [g1 [-> T1]]. cbn [bind]. rewrite (rdZ_nat nx _ _ _ T1 interf_lt). cbn [bind].
  assert (ID : get_material_index o (upd u seat (put_head o (u seat) Qs) (j + half)) = get_material_index o (u (j + half))).
  { unfold upd. destruct (Nat.eqb_spec (j + half) seat) as [->|]; [apply put_head_index|reflexivity]. }
  rewrite ID. destruct (Nat.eqb_spec (get_material_index o (u (j + half))) mat) as [E|E]; [eauto|].
  assert (D : depth (j + half) <> 0) by (intros D; apply E, HT; [exact interf_lt|exact D]).
  assert (ES : j + half = seat) by (revert D; unfold depth, seat, half; destruct left; destruct (Rlt_dec a (1 / 2)); lia).
  rewrite ES, upd_same, put_head_over.
  destruct (wrZ_nat nx g1 _ seat (put_head o (u seat) Qs) T1 seat_lt) as [g2 [-> T2]]. exists g2. split; [reflexivity|].
  revert T2. apply tot_ext. intros c Hc. unfold upd. destruct (Nat.eqb c seat); reflexivity.
Qed.

(** the rounds *)
Definition lab_at (N0 : nat) (i : nat) : Z := if Nat.eqb (depth i) 0 then lab i else if Nat.leb (depth i) N0 then Z.of_nat (depth i) else 0%Z.
Definition val_at (N0 : nat) (i : nat) : vec := if (Nat.leb 1 (depth i) && Nat.leb (depth i) N0)%bool then put_head o (u i) Qs else u i.
(** in round [N0], when the cells before [k] are done *)
Definition lab_in (N0 k i : nat) : Z := if (Nat.ltb i k && Nat.eqb (depth i) (N0 + 1))%bool then Z.of_nat (N0 + 1) else lab_at N0 i.
Definition val_in (N0 k i : nat) : vec := if (Nat.ltb i k && Nat.eqb (depth i) (N0 + 1))%bool then put_head o (u i) Qs else val_at N0 i.
Lemma lab_in_is N0 k i : 1 <= N0 -> i < nx -> lab_in N0 k i = Z.of_nat N0 <-> depth i = N0.
Proof.
  clear Hfar HQ HML HMR HT Hphi. intros HN Hi. unfold lab_in, lab_at, lab, depth, seat, own. destruct left;
  repeat match goal with |- context [Nat.ltb ?x ?y] => destruct (Nat.ltb_spec x y) | |- context [Nat.leb ?x ?y] => destruct (Nat.leb_spec x y) | |- context [Nat.eqb ?x ?y] => destruct (Nat.eqb_spec x y) end; cbn [andb]; lia.
Qed.
Lemma lab_in_0 N0 k i : 1 <= N0 -> lab_in N0 k i = 0%Z -> depth i = 0 /\ i <> own \/ N0 + 1 < depth i \/ (N0 + 1 = depth i /\ k <= i).
Proof.
  clear Hfar HQ HML HMR HT Hphi. intros HN. unfold lab_in, lab_at, lab, depth, seat, own. destruct left;
  repeat match goal with |- context [Nat.ltb ?x ?y] => destruct (Nat.ltb_spec x y) | |- context [Nat.leb ?x ?y] => destruct (Nat.leb_spec x y) | |- context [Nat.eqb ?x ?y] => destruct (Nat.eqb_spec x y) end; cbn [andb]; lia.
Qed.
Lemma label_read m k N0 c i : 1 <= N0 -> tot nx m (lab_in N0 k) -> i < nx -> c = i -> has_label m c (Z.of_nat N0) = Ok (Nat.eqb (depth i) N0).
Proof.
  intros HN T Hi ->. unfold has_label. rewrite (tot_rd nx _ _ _ T Hi). cbn [bind]. f_equal.
  destruct (Z.eqb_spec (lab_in N0 k i) (Z.of_nat N0)) as [E|E]; destruct (Nat.eqb_spec (depth i) N0) as [D|D]; try reflexivity; exfalso.
  - apply D. apply (lab_in_is N0 k i HN Hi). exact E.
  - apply E. apply (lab_in_is N0 k i HN Hi). exact D.
Qed.
Definition prev (i : nat) : nat := if left then i - 1 else i + 1.
Lemma neighbor_read m N0 i : 1 <= N0 -> tot nx m (lab_in N0 i) -> i < nx ->
  (depth i = N0 + 1 -> neighbor_1d nx i m (Z.of_nat N0) = Ok (Z.of_nat (prev i))) /\
  (depth i <> N0 + 1 -> depth i = 0 /\ i <> own \/ N0 + 1 < depth i -> neighbor_1d nx i m (Z.of_nat N0) = Ok (-1)%Z).
Proof.
  intros HN T Hi.
  assert (E : neighbor_1d nx i m (Z.of_nat N0) = Ok (if (Nat.ltb i (nx - 1) && Nat.eqb (depth (i + 1)) N0)%bool then Z.of_nat (i + 1) else if (Nat.ltb 0 i && Nat.eqb (depth (i - 1)) N0)%bool then Z.of_nat (i - 1) else (-1)%Z)).
  { unfold neighbor_1d, guarded. destruct (Nat.ltb_spec 0 i); [rewrite (label_read m i N0 (i - 1) (i - 1) HN T ltac:(lia) eq_refl)|]; cbn [bind andb];
    (destruct (Nat.ltb_spec i (nx - 1)); [rewrite (label_read m i N0 (i + 1) (i + 1) HN T ltac:(lia) eq_refl)|]); cbn [bind andb]; reflexivity. }
  rewrite E. unfold depth, prev, own. clear E T Hfar HQ HML HMR HT Hphi. split; intros; f_equal; destruct left;
  repeat match goal with |- context [Nat.ltb ?x ?y] => destruct (Nat.ltb_spec x y) | |- context [Nat.eqb ?x ?y] => destruct (Nat.eqb_spec x y) end; cbn [andb]; lia.
Qed.
Lemma back_at i : i < nx -> 2 <= depth i -> trunc (((INR i + / 2) * dX 0 - dX 0 * sg) / dX 0) = Z.of_nat (prev i) /\ prev i < nx.
Proof.
  intros Hi D. split; [|unfold prev, depth in *; destruct left; lia]. rewrite HdX. apply trunc_nat. replace (((INR i + / 2) * h - h * sg) / h)%R with (INR i + / 2 - sg)%R by (field; lra).
  unfold prev, sg, depth in *. destruct left; [|rewrite plus_INR; cbn [INR]; lra]. replace i with (i - 1 + 1) at 2 3 by lia. rewrite plus_INR. cbn [INR]. lra.
Qed.
Variable dphi : nat -> nat -> R.
Hypothesis Hd : forall i, i < nx -> dphi i = fun _ => sg.
Lemma round_ok N0 g m : 1 <= N0 -> tot nx g (val_at N0) -> tot nx m (lab_at N0) ->
  exists g' m', layer o dX [nx] dphi (Z.of_nat N0) (g, m) = Ok (g', m') /\ tot nx g' (val_at (N0 + 1)) /\ tot nx m' (lab_at (N0 + 1)).
Proof.
  intros HN Tg Tm. unfold layer.
  destruct (for_loop_inv (fun k s => tot nx (fst s) (val_in N0 k) /\ tot nx (snd s) (lab_in N0 k)) nx 0 (layer_cell_1d o dX [nx] dphi nx (Z.of_nat N0)) (g, m)) as [[g' m'] [E [T1 T2]]].
  - split; [revert Tg|revert Tm]; apply tot_ext; intros c Hc; unfold val_in, lab_in; reflexivity.
  - intros i [g1 m1] Hi [T1 T2]. cbn [fst snd] in *. unfold layer_cell_1d. rewrite (tot_rd nx _ _ _ T2) by lia. cbn [bind].
    assert (MONO : depth i <> N0 + 1 -> tot nx g1 (val_in N0 (1 + i)) /\ tot nx m1 (lab_in N0 (1 + i))).
    { intros D. split; [revert T1|revert T2]; apply tot_ext; intros c Hc; unfold val_in, lab_in; destruct (Nat.eqb_spec (depth c) (N0 + 1)) as [Dc|Dc]; rewrite ?Bool.andb_true_r, ?Bool.andb_false_r; try reflexivity;
      (destruct (Nat.ltb_spec c i); destruct (Nat.ltb_spec c (1 + i)); try reflexivity; try lia; assert (c = i) by lia; subst c; contradiction). }
    destruct (neighbor_read m1 N0 i HN T2 ltac:(lia)) as [N1 N2].
    destruct (Z.eqb_spec (lab_in N0 i i) 0) as [Z0|Z0].
    + pose proof (lab_in_0 N0 i i HN Z0) as C. destruct (Nat.eq_dec (depth i) (N0 + 1)) as [D|D].
      * rewrite (N1 D). cbn [bind]. destruct (Z.ltb_spec (-1) (Z.of_nat (prev i))); [|lia].
        destruct (tot_wr nx m1 _ i (Z.of_nat N0 + 1)%Z T2 ltac:(lia)) as [m2 [-> T3]]. cbn [bind].
        destruct (back_at i ltac:(lia) ltac:(lia)) as [B1 B2]. unfold fill_neighbor_inner, lin. cbn [coords length]. rewrite Hd, normal_sg by lia. cbv zeta. rewrite B1.
        assert (NP : prev i <> i) by (unfold prev, depth in *; destruct left; lia).
        assert (DP : depth (prev i) = N0) by (unfold prev, depth in *; destruct left; lia).
        rewrite (rdZ_nat nx _ _ _ T3 B2). cbn [bind]. rewrite upd_other by exact NP. rewrite (proj2 (lab_in_is N0 i (prev i) HN B2) DP). destruct (Z.ltb_spec (Z.of_nat N0) 1); [lia|].
        rewrite (rdZ_nat nx _ _ _ T1 B2). cbn [bind]. rewrite (rdZ_nat nx _ _ _ T1) by lia. cbn [bind].
        assert (VP : put_head o (val_in N0 i i) (val_in N0 i (prev i)) = put_head o (u i) Qs).
        { unfold val_in, val_at. rewrite DP, D. replace (Nat.eqb N0 (N0 + 1)) with false by (symmetry; apply Nat.eqb_neq; lia). rewrite Bool.andb_false_r. rewrite Nat.ltb_irrefl. cbn [andb].
          destruct (Nat.leb_spec 1 N0); [|lia]. rewrite Nat.leb_refl. cbn [andb]. destruct (Nat.leb_spec (N0 + 1) N0); [lia|]. rewrite Bool.andb_false_r. apply put_head_twice. }
        rewrite VP. destruct (wrZ_nat nx g1 _ i (put_head o (u i) Qs) T1 ltac:(lia)) as [g2 [-> T4]]. cbn [bind]. eexists. split; [reflexivity|]. cbn [fst snd].
        split; [revert T4|revert T3]; apply tot_ext; intros c Hc; unfold val_in, lab_in, upd; destruct (Nat.eqb_spec c i) as [->|Nc].
        -- destruct (Nat.ltb_spec i (1 + i)); [|lia]. rewrite D, Nat.eqb_refl. reflexivity.
        -- destruct (Nat.ltb_spec c i); destruct (Nat.ltb_spec c (1 + i)); try lia; reflexivity.
        -- destruct (Nat.ltb_spec i (1 + i)); [|lia]. rewrite D, Nat.eqb_refl. cbn [andb]. lia.
        -- destruct (Nat.ltb_spec c i); destruct (Nat.ltb_spec c (1 + i)); try lia; reflexivity.
      * rewrite (N2 D) by lia. cbn [bind]. destruct (Z.ltb_spec (-1) (-1)); [lia|]. eexists. split; [reflexivity|]. apply MONO, D.
    + eexists. split; [reflexivity|]. apply MONO. intros D. apply Z0. unfold lab_in. rewrite Nat.ltb_irrefl. cbn [andb]. unfold lab_at. rewrite D.
      destruct (Nat.eqb_spec (N0 + 1) 0); [lia|]. destruct (Nat.leb_spec (N0 + 1) N0); [lia|reflexivity].
  - exists g', m'. split; [exact E|]. cbn [fst snd Nat.add] in *. split; [revert T1|revert T2]; apply tot_ext; intros c Hc; unfold val_in, lab_in, val_at, lab_at;
      (destruct (Nat.ltb_spec c nx); [|lia]); destruct (Nat.eqb_spec (depth c) (N0 + 1)) as [D|D]; cbn [andb].
    + rewrite D. destruct (Nat.leb_spec 1 (N0 + 1)); [|lia]. rewrite Nat.leb_refl. reflexivity.
    + destruct (Nat.leb_spec (depth c) N0); destruct (Nat.leb_spec (depth c) (N0 + 1)); try lia; reflexivity.
    + rewrite D. destruct (Nat.eqb_spec (N0 + 1) 0); [lia|]. rewrite Nat.leb_refl. reflexivity.
    + destruct (Nat.leb_spec (depth c) N0); destruct (Nat.leb_spec (depth c) (N0 + 1)); try lia; reflexivity.
Qed.
Lemma rounds_ok g m : 1 <= Options.N o -> tot nx g (val_at 1) -> tot nx m (lab_at 1) ->
  exists g' m', fill_neighbor_cells o dX [nx] dphi (g, m) = Ok (g', m') /\ tot nx g' (val_at (10 * Options.N o)) /\ tot nx m' (lab_at (10 * Options.N o)).
Proof.
  intros HN Tg Tm. unfold fill_neighbor_cells, EXPANSION_FACTOR.
  destruct (for_loop_inv (fun k s => tot nx (fst s) (val_at k) /\ tot nx (snd s) (lab_at k)) (10 * Options.N o - 1) 1 (fun N0 s => layer o dX [nx] dphi (Z.of_nat N0) s) (g, m)) as [[g' m'] [E [T1 T2]]].
  - auto.
  - intros i [g1 m1] Hi [T1 T2]. destruct (round_ok i g1 m1 ltac:(lia) T1 T2) as [g2 [m2 [E [A B]]]]. exists (g2, m2). split; [exact E|]. replace (1 + i) with (i + 1) by lia. auto.
  - exists g', m'. split; [exact E|]. replace (1 + (10 * Options.N o - 1)) with (10 * Options.N o) in * by lia. auto.
Qed.
End Room.

Hypothesis Hind : material_indicator o u mat nmat dXl [nx] = Ok phi.
(** the interface point is too close to the right end of the grid: the far probe is past the last cell *)
Lemma boundary_is g : tot nx g u -> exists m dphi, finite_difference phi dX [nx] = Ok dphi /\ (forall i, i < nx -> dphi i = fun _ => sg) /\ find_interface_cells (mkbuf nx (fun i => Some (phi i))) [nx] = Ok m /\ tot nx m lab /\
  fill_boundary_cells o star dX [nx] MPs dt nx m mat (mkbuf nx (fun i => Some (phi i))) dphi g = fill_boundary_inner o star dX [nx] MPs dt g (coords [nx] seat) (phi seat) mat (fun _ => sg) (-1).
Proof.
  intros T. destruct labels as [m [E1 Tm]]. destruct gradient as [dphi [E2 D]]. exists m, dphi. split; [exact E2|]. split; [exact D|]. split; [exact E1|]. split; [exact Tm|].
  unfold fill_boundary_cells, fill_boundary_order. rewrite (fold_seq _ nx seat); [|exact seat_lt|].
  - unfold fill_boundary_cell. rewrite (tot_rd nx _ _ _ Tm seat_lt). cbn [bind]. unfold lab at 1. rewrite Nat.eqb_refl. cbn [Z.eqb Pos.eqb bind]. rewrite (rd_ok _ seat (phi seat)) by (try exact seat_lt; reflexivity). cbn [bind length].
    rewrite D by exact seat_lt. rewrite normal_sg. reflexivity.
  - intros i Hi N s. unfold fill_boundary_cell. rewrite (tot_rd nx _ _ _ Tm Hi). cbn [bind]. unfold lab. destruct (Nat.eqb_spec i seat); [contradiction|]. destruct (Nat.eqb i own); reflexivity.
Qed.
Lemma side_overruns : nx <= far -> exists w, fill_material o star dX [nx] MPs dt dXl nx nmat mat u = UB w.
Proof.
  intros F. unfold fill_material. rewrite Hind. cbn [bind]. set (g := mkbuf nx (fun i => Some (u i))). assert (Tg : tot nx g u) by (split; reflexivity).
  destruct (boundary_is g Tg) as [m [dphi [-> [_ [E [_ EB]]]]]]. cbn [bind]. rewrite E. cbn [bind]. rewrite EB. unfold fill_boundary_inner, boundary_inds, lin. cbv zeta. rewrite far_at.
  unfold rdZ. destruct (Z.ltb_spec (Z.of_nat far) 0); [lia|]. rewrite Nat2Z.id. unfold rd. cbn [blen g]. destruct (Nat.ltb_spec far nx); [lia|]. cbn [bind]. eauto.
Qed.
Lemma side_filled ML MR Qs : 1 <= Options.N o -> far < nx -> nth_error MPs mat = Some ML -> nth_error MPs (get_material_index o (u far)) = Some MR -> star (u own) (u far) ML MR dt (fun _ => sg) = Ok Qs ->
  exists g mk, fill_material o star dX [nx] MPs dt dXl nx nmat mat u = Ok (g, mk) /\
    stores nx g (fun i => if (Nat.leb 1 (depth i) && Nat.leb (depth i) (10 * Options.N o))%bool then put_head o (u i) Qs else u i) /\
    forall i, i < nx -> mk i = Nat.leb (depth i) 1.
Proof.
  intros HN F HML HMR HQ. unfold fill_material. rewrite Hind. cbn [bind]. set (g := mkbuf nx (fun i => Some (u i))). assert (Tg : tot nx g u) by (split; reflexivity).
  destruct (boundary_is g Tg) as [m [dphi [-> [D [E [Tm EB]]]]]]. cbn [bind]. rewrite E. cbn [bind]. rewrite EB.
  destruct (inner_ok F ML MR Qs HML HMR HQ g Tg) as [g1 [-> T1]]. cbn [bind].
  destruct (rounds_ok F ML MR Qs HQ dphi D g1 m HN) as [g2 [m2 [-> [T2 T3]]]].
  - revert T1. apply tot_ext. intros c Hc. clear - Hj. unfold upd, val_at, seat, depth. destruct left; match goal with |- context [Nat.eqb c ?y] => destruct (Nat.eqb_spec c y) as [->|] end;
      repeat match goal with |- context [Nat.leb ?x ?y] => destruct (Nat.leb_spec x y) end; cbn [andb]; try reflexivity; exfalso; lia.
  - revert Tm. apply tot_ext. intros c Hc. clear - Hj. unfold lab_at, lab, seat, own, depth. destruct left;
      repeat match goal with |- context [Nat.leb ?x ?y] => destruct (Nat.leb_spec x y) | |- context [Nat.eqb ?x ?y] => destruct (Nat.eqb_spec x y) end; cbn [andb]; lia.
  - cbn [bind]. eexists _, _. split; [reflexivity|]. split.
    + apply stores_tot. destruct T2 as [L2 T2]. split; [exact L2|]. intros c Hc. cbn [restore_levelsets bdat]. rewrite T2 by exact Hc. cbn [option_map]. f_equal. unfold val_at. apply restore_head.
      intros k Hk. destruct (_ && _)%bool; [|reflexivity]. unfold put_head, setseg. destruct (Nat.ltb_spec k (0 + (V o - LSET o))); [lia|]. rewrite Bool.andb_false_r. reflexivity.
    + intros i Hi. destruct T3 as [_ T3]. rewrite T3 by exact Hi. unfold mask_cell, lab_at, lab. destruct (Nat.eq_dec (depth i) 0) as [Z|Z].
      * pose proof (phi_neg i Hi Z). destruct (Rle_dec (phi i) 0); [|lra]. rewrite Z. cbn [Nat.eqb Nat.leb]. destruct (Nat.eqb_spec i seat) as [->|]; [exfalso; revert Z; unfold depth, seat; destruct left; lia|].
        destruct (Nat.eqb i own); reflexivity.
      * pose proof (phi_pos i Hi Z). destruct (Rle_dec (phi i) 0); [lra|]. cbn [orb]. destruct (Nat.eqb_spec (depth i) 0); [contradiction|].
        destruct (Nat.leb_spec (depth i) (10 * Options.N o)); destruct (Nat.leb_spec (depth i) 1); destruct (Z.eqb_spec (Z.of_nat (depth i)) 1); try reflexivity; lia.
Qed.
End Side.
