(** Safety of the boundary filling; one material from end to end. *)
From Coq Require Import Reals ZArith Lra Permutation.
From Verif Require Import Base Options Mat3 PhysModel FmmModel LevelSetModel UtilsModel UtilsProof FillModel FmmSpec FmmProof6 FillSpec FillProof FillProof2 FillProof3 FillProof4 FillProof5 FillProof6.
Import List ListNotations.
Open Scope nat_scope.

(** ** labels *)
Section Labels.
Variables (nX : list nat) (P : nat -> R).
Hypothesis D12 : dim12 nX.
Notation n := (size_ nX).
Notation PC := (fun C => P (flat nX C)).
Notation solid := (fun C => (PC C <= 0)%R /\ (List.length nX = 2 -> ~ isolated nX PC C)).
(** the facts used below, the same for both dimensions *)
Record labels (M : nat -> Z) : Prop := mklabels {
  l_le : forall c, c < n -> (M c <= 1)%Z;
  l_one : forall C, inside nX C -> (M (flat nX C) = 1%Z <-> (0 < PC C)%R /\ exists C', adjacent nX C C' /\ solid C');
  l_iso : forall C, inside nX C -> (M (flat nX C) = (-2)%Z <-> List.length nX = 2 /\ isolated nX PC C);
  l_minus : forall C, inside nX C -> M (flat nX C) = (-1)%Z -> (PC C <= 0)%R;
  l_next : forall C C', inside nX C -> adjacent nX C C' -> (0 < PC C)%R -> solid C' -> M (flat nX C') = (-1)%Z }.

Lemma labels_ex : exists m M, find_interface_cells (full n P) nX = Ok m /\ tot n m M /\ labels M.
Proof.
  assert (K : exists m, find_interface_cells (full n P) nX = Ok m /\ blen m = n /\
    forall C, inside nX C -> exists z, rd m (flat nX C) = Ok z /\
      (List.length nX = 1 -> label_1d nX PC C z) /\ (List.length nX = 2 -> label_2d nX PC C z)).
  { destruct D12 as [D|D].
    - destruct nX as [|nx [|? ?]]; try discriminate D. replace (size_ [nx]) with nx by (cbn; lia).
      destruct (interface_1d_labels nx P) as [m [E [L H]]]. exists m. split; [exact E|]. split; [exact L|].
      intros C HC. destruct (H C HC) as [z [Z1 Z2]]. exists z. split; [exact Z1|]. split; [auto|]. intros Q. discriminate Q.
    - destruct nX as [|nx [|ny [|? ?]]]; try discriminate D. replace (size_ [nx; ny]) with (nx * ny) by (cbn; lia).
      destruct (interface_2d_labels nx ny P) as [m [E [L H]]]. exists m. split; [exact E|]. split; [exact L|].
      intros C HC. destruct (H C HC) as [z [Z1 Z2]]. exists z. split; [exact Z1|]. split; [|auto]. intros Q. discriminate Q. }
  destruct K as [m [E [L H]]]. exists m, (fun c => match bdat m c with Some z => z | None => 0%Z end). split; [exact E|].
  assert (T : tot n m (fun c => match bdat m c with Some z => z | None => 0%Z end)).
  { split; [exact L|]. intros c Hc. destruct (flat_surj nX c Hc) as [C [HC <-]]. destruct (H C HC) as [z [Z1 _]].
    apply rd_inv in Z1. destruct Z1 as [_ ->]. reflexivity. }
  split; [exact T|].
  assert (H' : forall C, inside nX C -> let z := match bdat m (flat nX C) with Some z => z | None => 0%Z end in
     (List.length nX = 1 -> label_1d nX PC C z) /\ (List.length nX = 2 -> label_2d nX PC C z)).
  { intros C HC. destruct (H C HC) as [z [Z1 Z2]]. apply rd_inv in Z1. destruct Z1 as [_ ->]. exact Z2. }
  clear H T. set (M := fun c => match bdat m c with Some z => z | None => 0%Z end).
  assert (H : forall C, inside nX C -> (List.length nX = 1 -> label_1d nX PC C (M (flat nX C))) /\ (List.length nX = 2 -> label_2d nX PC C (M (flat nX C)))) by exact H'.
  clearbody M. clear H' E L m.
  (* the label from the kind of the cell *)
  assert (Pos : forall C, inside nX C -> (0 < PC C)%R ->
    ((exists C', adjacent nX C C' /\ solid C') -> M (flat nX C) = 1%Z) /\ (~ (exists C', adjacent nX C C' /\ solid C') -> M (flat nX C) = 0%Z)).
  { intros C HC HP. destruct D12 as [D|D].
    - destruct (proj1 (H C HC) D) as [A1 [A2 A3]]. split.
      + intros [C' [A [Q _]]]. apply A1; [|exact HP]. exists C'. split; [exact A|]. cbv beta in *. nra.
      + intros N. apply A3. intros [C' [A Q]]. apply N. exists C'. split; [exact A|]. split; [cbv beta in *; nra|lia].
    - destruct (proj2 (H C HC) D) as [A1 [A2 [A3 [A4 A5]]]]. split.
      + intros [C' [A [Q1 Q2]]]. apply A4; [exact HP|]. exists C'. auto.
      + intros N. apply A5; [exact HP|]. intros [C' [A [Q1 Q2]]]. apply N. exists C'. auto. }
  assert (Neg : forall C, inside nX C -> (PC C <= 0)%R ->
    (List.length nX = 2 -> isolated nX PC C -> M (flat nX C) = (-2)%Z) /\
    (solid C -> (exists C', adjacent nX C C' /\ (PC C * PC C' <= 0)%R) -> M (flat nX C) = (-1)%Z) /\
    (solid C -> ~ (exists C', adjacent nX C C' /\ (PC C * PC C' <= 0)%R) -> M (flat nX C) = 0%Z)).
  { intros C HC HP. destruct D12 as [D|D].
    - destruct (proj1 (H C HC) D) as [A1 [A2 A3]]. split; [intros Q; lia|]. split; [intros _ Q; apply A2; assumption|intros _ Q; apply A3; exact Q].
    - destruct (proj2 (H C HC) D) as [A1 [A2 [A3 [A4 A5]]]]. split; [auto|]. split; intros [_ Q1] Q2; [apply A2|apply A3]; auto. }
  assert (Cases : forall C, inside nX C ->
    ((0 < PC C)%R /\ (exists C', adjacent nX C C' /\ solid C') /\ M (flat nX C) = 1%Z) \/
    ((0 < PC C)%R /\ ~ (exists C', adjacent nX C C' /\ solid C') /\ M (flat nX C) = 0%Z) \/
    ((PC C <= 0)%R /\ List.length nX = 2 /\ isolated nX PC C /\ M (flat nX C) = (-2)%Z) \/
    (solid C /\ (M (flat nX C) = (-1)%Z \/ M (flat nX C) = 0%Z))).
  { intros C HC. destruct (Rle_dec (PC C) 0) as [L|L].
    - destruct (Neg C HC L) as [A1 [A2 A3]]. destruct (Classical_Prop.classic (List.length nX = 2 /\ isolated nX PC C)) as [[I1 I2]|NI].
      + right. right. left. auto.
      + assert (S : solid C) by (split; [exact L|]; intros D I; apply NI; auto). right. right. right. split; [exact S|].
        destruct (Classical_Prop.classic (exists C', adjacent nX C C' /\ (PC C * PC C' <= 0)%R)); auto.
    - apply Rnot_le_lt in L. destruct (Pos C HC L) as [A1 A2].
      destruct (Classical_Prop.classic (exists C', adjacent nX C C' /\ solid C')); [left|right; left]; auto. }
  constructor.
  - intros c Hc. destruct (flat_surj nX c Hc) as [C [HC <-]]. destruct (Cases C HC) as [X|[X|[X|X]]]; intuition lia.
  - intros C HC. destruct (Cases C HC) as [[X1 [X2 X3]]|[[X1 [X2 X3]]|[[X1 [X2 [X3 X4]]]|[X1 X2]]]].
    + tauto.
    + split; [intros; lia|tauto].
    + split; [intros; lia|intros [Q _]; lra].
    + split; [intros; lia|intros [Q _]; destruct X1; lra].
  - intros C HC. destruct (Cases C HC) as [[X1 [X2 X3]]|[[X1 [X2 X3]]|[[X1 [X2 [X3 X4]]]|[X1 X2]]]].
    + split; [intros; lia|intros [_ [Q _]]; lra].
    + split; [intros; lia|intros [_ [Q _]]; lra].
    + tauto.
    + split; [intros; lia|intros [Q1 Q2]]. destruct X1 as [_ X1]. exfalso. apply X1; assumption.
  - intros C HC E. destruct (Cases C HC) as [[X1 [X2 X3]]|[[X1 [X2 X3]]|[[X1 [X2 [X3 X4]]]|[[X1 _] X2]]]]; try lia; exact X1.
  - intros C C' HC A HP S. destruct (Neg C' (proj1 A) (proj1 S)) as [_ [A2 _]]. apply A2; [exact S|].
    exists C. split; [apply adj_sym; assumption|]. cbv beta in *. destruct S as [S _]. nra.
Qed.

Lemma walk_positive M C k : labels M -> walk nX (fun C => M (flat nX C) = 1%Z) (fun C => M (flat nX C) = 0%Z) k C -> inside nX C /\ (0 < PC C)%R.
Proof.
  intros HL W. induction W as [C I S|k C C' W IH A F].
  - split; [exact I|]. apply (l_one M HL C I) in S. apply S.
  - split; [apply A|]. destruct IH as [I HP]. apply Rnot_le_lt. intros Q.
    assert (NI : ~ (List.length nX = 2 /\ isolated nX PC C')).
    { intros X. apply (l_iso M HL C' (proj1 A)) in X. rewrite X in F. discriminate. }
    pose proof (l_next M HL C C' I A HP) as X. rewrite F in X. assert (0 = -1)%Z; [|discriminate]. apply X.
    split; [exact Q|]. intros D Is. apply NI. auto.
Qed.
End Labels.

(** ** safety of the boundary filling *)
Section Safe.
Variable o : options.
Variable star : vec -> vec -> matpar -> matpar -> R -> (nat -> R) -> res vec.
Variables (dX : nat -> R) (nX : list nat) (MPs : list matpar) (dt : R).
Hypothesis D12 : dim12 nX.
Hypothesis HdX : forall d, d < List.length nX -> (0 < dX d)%R.
Notation n := (size_ nX).
Variables (m : buf Z) (M : nat -> Z) (mat : nat) (P : nat -> R) (dphi : nat -> nat -> R) (T : nat -> nat).
Hypothesis Tm : tot n m M.
Hypothesis Hstar : forall a b ML MR t nr, is_ok (star a b ML MR t nr).
Hypothesis Hmat : mat < List.length MPs.
Hypothesis HT : forall c, c < n -> T c < List.length MPs.

Lemma get_in i : i < List.length MPs -> exists x, get MPs i = Ok x.
Proof.
  intros H. unfold get. destruct (nth_error MPs i) eqn:E; [eauto|]. apply nth_error_None in E. lia.
Qed.
Lemma chk_range z : (0 <= z < Z.of_nat n)%Z -> exists k, chk nX z = Ok k /\ k < n /\ z = Z.of_nat k.
Proof.
  intros H. exists (Z.to_nat z). assert (E : z = Z.of_nat (Z.to_nat z)) by (rewrite Z2Nat.id by lia; reflexivity).
  split; [|split; [lia|exact E]]. rewrite E at 1. apply chk_in. lia.
Qed.
Lemma probe_range C p nr s : inside nX C -> in_box dX nX (probe_point dX C p nr s) ->
  (0 <= lin nX (probe (coords nX (flat nX C)) p nr dX s) < Z.of_nat n)%Z.
Proof.
  intros HC HB. apply lin_range; [exact D12|]. intros d Hd. unfold probe. rewrite coords_flat by assumption.
  pose proof (C_lt dX nX C D12 HdX HC d Hd) as L.
  specialize (HB d Hd). specialize (HdX d Hd). unfold probe_point in HB.
  replace (((INR (nth d C 0%nat) + / 2) * dX d - p * nr d + s * dX d * nr d) / dX d)%R
    with (((INR (nth d C 0%nat) + 1 / 2) * dX d - p * nr d + s * dX d * nr d) * / dX d)%R by (field; lra).
  set (y := ((INR (nth d C 0%nat) + 1 / 2) * dX d - p * nr d + s * dX d * nr d)%R) in *.
  assert (I : (0 < / dX d)%R) by (apply Rinv_0_lt_compat; exact HdX).
  apply trunc_range; [lia| |].
  - apply Rmult_lt_reg_r with (dX d); [exact HdX|]. rewrite Rmult_assoc, Rinv_l by lra. lra.
  - apply Rmult_lt_reg_r with (dX d); [exact HdX|]. rewrite Rmult_assoc, Rinv_l by lra. lra.
Qed.
(** the axis neighbours against the normal are cells *)
Definition axes_inside (C : list nat) (nr : nat -> R) : Prop := forall d, d < List.length nX ->
  ((0 < nr d)%R -> 1 <= nth d C 0) /\ ((nr d < 0)%R -> nth d C 0 + 1 < nth d nX 0).
Lemma axis_range C nr : inside nX C -> axes_inside C nr -> forall d, d < List.length nX ->
  (0 <= Z.of_nat (nth d C 0%nat) - sgn (nr d) < Z.of_nat (nth d nX 0%nat))%Z.
Proof.
  intros HC HA d Hd. destruct (HA d Hd) as [A B]. pose proof (C_lt dX nX C D12 HdX HC d Hd). unfold sgn.
  destruct (Rlt_dec 0 (nr d)) as [Q|Q]; [specialize (A Q); lia|]. destruct (Rlt_dec (nr d) 0) as [Q2|Q2]; [specialize (B Q2); lia|lia].
Qed.
Lemma fallback_safe C nr indn : inside nX C -> List.length nX = 2 -> axes_inside C nr -> (0 <= indn < Z.of_nat n)%Z ->
  is_ok (fallback nX mat T (coords nX (flat nX C)) nr indn).
Proof.
  intros HC D HA Hi. unfold fallback. rewrite D. cbn [Nat.ltb Nat.leb]. cbv zeta.
  rewrite !coords_flat by (try assumption; lia).
  match goal with |- is_ok (bind (if _ then bind (chk nX ?a) _ else bind (chk nX ?b) _) _) => set (at0 := a); set (at1 := b) end.
  assert (R0 : (0 <= at0 < Z.of_nat n)%Z).
  { apply lin_range; [exact D12|]. intros d Hd. destruct d as [|[|d]]; cbn [Nat.eqb]; [apply axis_range; assumption| |lia].
    pose proof (C_lt dX nX C D12 HdX HC 1 Hd). lia. }
  assert (R1 : (0 <= at1 < Z.of_nat n)%Z).
  { apply lin_range; [exact D12|]. intros d Hd. destruct d as [|[|d]]; cbn [Nat.eqb]; [|apply axis_range; assumption|lia].
    pose proof (C_lt dX nX C D12 HdX HC 0 Hd). lia. }
  destruct (chk_range at0 R0) as [k0 [E0 [_ _]]]. destruct (chk_range at1 R1) as [k1 [E1 [_ _]]].
  destruct (chk_range indn Hi) as [k2 [E2 [_ _]]].
  destruct (Rlt_dec (Rabs (nr 1)) (Rabs (nr 0))); rewrite ?E0, ?E1; cbn [bind].
  - destruct (Nat.eqb (T k0) mat); rewrite ?E0, ?E1; cbn [bind].
    + destruct (Nat.eqb (T k0) mat); rewrite ?E0, ?E2; eexists; reflexivity.
    + destruct (Nat.eqb (T k1) mat); rewrite ?E1, ?E2; eexists; reflexivity.
  - destruct (Nat.eqb (T k1) mat); rewrite ?E0, ?E1; cbn [bind].
    + destruct (Nat.eqb (T k1) mat); rewrite ?E1, ?E2; eexists; reflexivity.
    + destruct (Nat.eqb (T k0) mat); rewrite ?E0, ?E2; eexists; reflexivity.
Qed.
Lemma indn_safe C : inside nX C -> exists indn, indn_of nX m (flat nX C) = Ok indn /\
  ((List.length nX = 2 /\ exists C', adjacent nX C C' /\ M (flat nX C') = (-1)%Z) -> (0 <= indn < Z.of_nat n)%Z).
Proof using D12 Tm.
  clear HdX Hmat HT Hstar. intros HC. assert (Hc : flat nX C < n) by (apply flat_lt; exact HC). unfold indn_of. destruct D12 as [D|D].
  - destruct nX as [|nx [|? ?]]; try discriminate D. eexists. split; [reflexivity|]. intros [Q _]. discriminate Q.
  - destruct (nb_label_spec nX m M (flat nX C) (-1)%Z D12 Hc Tm) as [r [Er Hr]]. exists r. split.
    + destruct nX as [|nx [|ny [|? ?]]]; try discriminate D. exact Er.
    + intros [_ [C' [A Q]]]. destruct Hr as [[k [I [_ ->]]]|[_ Hr]].
      * apply (nbs_sym nX (flat nX C) k D12 Hc) in I. lia.
      * exfalso. apply (Hr (flat nX C')); [|exact Q]. apply adj_nbs; [exact D12|exact HC|]. exists C'. auto.
Qed.
Definition good (C : list nat) : Prop := exists nr, normal (List.length nX) (dphi (flat nX C)) = Some nr /\
  (in_box dX nX (probe_point dX C (P (flat nX C)) nr (-1)) /\ in_box dX nX (probe_point dX C (P (flat nX C)) nr 0) /\
   in_box dX nX (probe_point dX C (P (flat nX C)) nr 1)) /\
  ((forall i l r, boundary_inds (coords nX (flat nX C)) (P (flat nX C)) nr dX nX = (i, l, r) -> T (Z.to_nat i) = mat \/ T (Z.to_nat l) = mat) \/
   (List.length nX = 2 /\ axes_inside C nr /\ exists C', adjacent nX C C' /\ M (flat nX C') = (-1)%Z)).
Lemma plan_safe C : inside nX C -> (M (flat nX C) = 1%Z -> good C) -> is_ok (plan_of dX nX MPs m M mat P dphi T (flat nX C)).
Proof.
  intros HC HG. unfold plan_of. set (c := flat nX C) in *. assert (Hc : c < n) by (apply flat_lt; exact HC).
  destruct (Z.eqb_spec (M c) 1) as [E1|E1]; [|eexists; reflexivity]. destruct (HG E1) as [nr [En [[B1 [B2 B3]] HF]]]. fold c in En, B1, B2, B3, HF.
  assert (IN := indn_safe C HC). fold c in IN.
  destruct IN as [indn [Ei HI]]. rewrite Ei. cbn [bind]. rewrite En.
  pose proof (probe_range C (P c) nr 0 HC B2) as R0. pose proof (probe_range C (P c) nr (-1) HC B1) as RL. pose proof (probe_range C (P c) nr 1 HC B3) as RR.
  fold c in R0, RL, RR.
  unfold boundary_inds in *.
  destruct (chk_range _ RR) as [r [ER [Hr _]]]. rewrite ER. cbn [bind]. destruct (chk_range _ R0) as [i [E0 [Hi Ei']]]. rewrite E0. cbn [bind].
  destruct (chk_range _ RL) as [l [EL [Hl El']]].
  assert (X : is_ok (if Nat.eqb (T i) mat then Ok (i, nr) else
     l <- chk nX (lin nX (probe (coords nX c) (P c) nr dX (-1))) ;; if Nat.eqb (T l) mat then Ok (l, nr) else fallback nX mat T (coords nX c) nr indn)).
  { destruct (Nat.eqb_spec (T i) mat) as [Q|Q]; [eexists; reflexivity|]. rewrite EL. cbn [bind].
    destruct (Nat.eqb_spec (T l) mat) as [Q2|Q2]; [eexists; reflexivity|].
    destruct HF as [HF|[D [HA HN]]].
    - destruct (HF _ _ _ eq_refl) as [Y|Y]; rewrite ?Ei', ?El', Nat2Z.id in Y; contradiction.
    - apply fallback_safe; auto. }
  destruct X as [[ql n'] X]. rewrite X. cbn [bind]. destruct (get_in mat Hmat) as [ML EM]. rewrite EM. cbn [bind].
  destruct (get_in (T r) (HT r Hr)) as [MR EMR]. rewrite EMR. cbn [bind]. eexists. reflexivity.
Qed.
Lemma exec_safe p G : is_ok (exec o star dt p G).
Proof.
  destruct p as [p|]; [|eexists; reflexivity]. cbn [exec].
  match goal with |- is_ok (bind (star ?a ?b ?c ?d ?e ?f) _) => destruct (Hstar a b c d e f) as [Q ->] end. eexists. reflexivity.
Qed.
Lemma exec_all_safe l : (forall c, In c l -> is_ok (plan_of dX nX MPs m M mat P dphi T c)) -> forall G, is_ok (exec_all o star dX nX MPs dt m M mat P dphi T l G).
Proof.
  induction l as [|c l IH]; intros Hl G; [eexists; reflexivity|]. cbn [exec_all]. destruct (Hl c (or_introl eq_refl)) as [p ->]. cbn [bind].
  destruct (exec_safe p G) as [G1 ->]. cbn [bind]. apply IH. intros k I. apply Hl. right. exact I.
Qed.
End Safe.

(** ** which cells the boundary filling changes *)
Section Frame.
Variable o : options.
Variable star : vec -> vec -> matpar -> matpar -> R -> (nat -> R) -> res vec.
Variables (dX : nat -> R) (nX : list nat) (MPs : list matpar) (dt : R).
Hypothesis D12 : dim12 nX.
Notation n := (size_ nX).
Variables (m : buf Z) (M : nat -> Z) (mat : nat) (P : nat -> R) (dphi : nat -> nat -> R) (T : nat -> nat).
Hypothesis Tm : tot n m M.
Lemma exec_all_frame l : (forall c, In c l -> c < n) -> forall G G', exec_all o star dX nX MPs dt m M mat P dphi T l G = Ok G' ->
  (forall c, M c <> 1%Z -> T c = mat -> G' c = G c) /\ (forall c, tl_eq o (G' c) (G c)).
Proof.
  induction l as [|a l IH]; intros Hl G G' E; cbn [exec_all] in E.
  - injection E as <-. split; [auto|]. intros c k _. reflexivity.
  - apply bind_ok in E. destruct E as [p [Ep E]]. apply bind_ok in E. destruct E as [G1 [E1 E]].
    destruct (IH (fun c I => Hl c (or_intror I)) G1 G' E) as [A B]. split.
    + intros c H1 H2. rewrite A by assumption. destruct p as [p|]; [|injection E1 as <-; reflexivity].
      destruct (plan_parts dX nX MPs D12 m M mat P dphi Tm T a p (Hl a (or_introl eq_refl)) Ep) as [Q1 [Q2 [nr [i [L [_ [_ [_ [Q3 _]]]]]]]]].
      apply (exec_frame o star dt p G G1 c E1).
      * rewrite Q2. intros ->. contradiction.
      * intros X. apply Q3 in X. tauto.
    + intros c k Hk. rewrite (B c k Hk). apply (exec_tl o star dt p G G1 c E1 k Hk).
Qed.
End Frame.

(** ** one material *)
Section Material.
Variable o : options.
Variable star : vec -> vec -> matpar -> matpar -> R -> (nat -> R) -> res vec.
Variables (dX : nat -> R) (nX : list nat) (MPs : list matpar) (dt : R) (dXl : list R).
Hypothesis D12 : dim12 nX.
Notation n := (size_ nX).
Lemma material_facts nmat mat u g mk : fill_material o star dX nX MPs dt dXl n nmat mat u = Ok (g, mk) ->
  exists phi, material_indicator o u mat nmat dXl nX = Ok phi /\ 
    let PC := fun C => phi (flat nX C) in
    exists G, tot n g G /\
    (forall C, inside nX C -> (PC C <= 0)%R -> ~ (List.length nX = 2 /\ isolated nX PC C) -> get_material_index o (u (flat nX C)) = mat ->
      forall k, k < V o -> G (flat nX C) k = u (flat nX C) k) /\
    (forall c k, c < n -> V o - LSET o <= k < V o -> G c k = u c k) /\
    (forall C, inside nX C -> (mk (flat nX C) = true <-> belongs nX PC C)).
Proof.
  intros E. unfold fill_material in E. apply bind_ok in E. destruct E as [phi [E1 E]]. exists phi. split; [exact E1|]. cbv zeta.
  apply bind_ok in E. destruct E as [dphi [E2 E]]. apply bind_ok in E. destruct E as [m0 [E3 E]].
  apply bind_ok in E. destruct E as [g1 [E4 E]]. apply bind_ok in E. destruct E as [[g2 m2] [E5 E]]. injection E as <- <-.
  destruct (labels_ex nX phi D12) as [m0' [M [F1 [F2 HL]]]]. change (mkbuf n (fun i => Some (phi i))) with (full n phi) in *.
  rewrite F1 in E3. injection E3 as <-.
  set (T := fun c => get_material_index o (u c)).
  pose proof (order_plan o star dX nX MPs dt D12 m0' M mat phi dphi F2 T (seq 0 n)) as X.
  specialize (X ltac:(intros c I; apply in_seq in I; lia) (full n u) u (tot_full n u) ltac:(intros c _; reflexivity)).
  unfold fill_boundary_cells in E4. change (mkbuf n (fun i => Some (u i))) with (full n u) in E4.
  destruct (exec_all o star dX nX MPs dt m0' M mat phi dphi T (seq 0 n) u) as [G1| | |] eqn:EA; cbn [same_res] in X; try congruence.
  destruct X as [g1' [X1 X2]]. rewrite X1 in E4. injection E4 as ->.
  destruct (exec_all_frame o star dX nX MPs dt D12 m0' M mat phi dphi T F2 (seq 0 n) ltac:(intros c I; apply in_seq in I; lia) u G1 EA) as [Fr Tl].
  destruct (all_rounds o dX nX dphi D12 M G1 (l_le nX phi M HL) g1 m0' g2 m2 X2 F2 E5) as [G2 [M2 [Y1 [Y2 [Y3 [Y4 _]]]]]].
  exists (fun c => setseg (G2 c) (V o - LSET o) (LSET o) (fun k => u c (V o - LSET o + k))).
  assert (VL : V o - LSET o + LSET o = V o) by (unfold V; lia).
  split; [|split; [|split]].
  - split; [apply Y1|]. intros c Hc. cbn [restore_levelsets bdat]. rewrite (proj2 Y1 c Hc). reflexivity.
  - intros C HC HP NI HM k Hk. destruct (le_lt_dec (V o - LSET o) k) as [Q|Q].
    + rewrite setseg_in by lia. f_equal. lia.
    + rewrite setseg_out by lia. assert (Hc : flat nX C < n) by (apply flat_lt; exact HC).
      assert (K : G2 (flat nX C) = G1 (flat nX C)).
      { destruct (fr2 (M (flat nX C))) eqn:F; [|apply (v_keep _ _ _ _ _ _ _ _ Y3 _ Hc F)].
        apply Bool.orb_true_iff in F. rewrite !Z.eqb_eq in F. destruct F as [F|F].
        - apply (v_zero _ _ _ _ _ _ _ _ Y3 _ Hc). destruct (proj2 (Y4 C HC) F) as [[j [_ [_ [W _]]]]|[Z0 _]]; [|exact Z0].
          exfalso. apply (walk_positive nX phi M C j HL) in W. destruct W as [_ W]. cbv beta in *. lra.
        - exfalso. apply NI. apply (l_iso nX phi M HL C HC). exact F. }
      rewrite K. rewrite Fr; [reflexivity| |exact HM]. intros Q1. apply (l_one nX phi M HL C HC) in Q1. cbv beta in *. lra.
  - intros c k Hc Hk. rewrite setseg_in by lia. f_equal. lia.
  - intros C HC. assert (Hc : flat nX C < n) by (apply flat_lt; exact HC). rewrite (proj2 Y2 _ Hc). unfold mask_cell, belongs.
    destruct (Y4 C HC) as [B1 B2]. cbv zeta in B1, B2.
    assert (I2 : M2 (flat nX C) = (-2)%Z <-> M (flat nX C) = (-2)%Z).
    { destruct (Z.eq_dec (M (flat nX C)) 0) as [Z0|Z0]; [|rewrite B1 by exact Z0; tauto]. destruct (B2 Z0) as [[j [_ [J _]]]|[J _]]; rewrite J, Z0; lia. }
    assert (I1 : M2 (flat nX C) = 1%Z <-> M (flat nX C) = 1%Z).
    { destruct (Z.eq_dec (M (flat nX C)) 0) as [Z0|Z0]; [|rewrite B1 by exact Z0; tauto]. destruct (B2 Z0) as [[j [J0 [J _]]]|[J _]]; rewrite J, Z0; lia. }
    rewrite Bool.orb_true_iff, Z.eqb_eq, I1, (l_one nX phi M HL C HC).
    assert (S : (if Rle_dec (phi (flat nX C)) 0 then negb (Z.eqb (M2 (flat nX C)) (-2)) else false) = true <->
                (phi (flat nX C) <= 0)%R /\ (List.length nX = 2 -> ~ isolated nX (fun C => phi (flat nX C)) C)).
    { destruct (Rle_dec (phi (flat nX C)) 0) as [L|L]; [|split; [discriminate|tauto]].
      rewrite Bool.negb_true_iff, Z.eqb_neq, I2, (l_iso nX phi M HL C HC). tauto. }
    rewrite S. tauto.
Qed.
End Material.
