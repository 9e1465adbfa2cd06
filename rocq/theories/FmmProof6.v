(** From addresses to cells: the fast-marching theorems in the vocabulary of FmmSpec. *)
From Verif Require Import Base HeapModel HeapSpec HeapProof FmmModel FmmGrid FmmProof FmmProof2 FmmProof3 FmmProof4 FmmProof5 FmmSpec.
Open Scope nat_scope.

Lemma cells_size s : cells s = size_ s.
Proof. unfold size_. induction s; cbn; auto. Qed.

Lemma inside_len s : forall c, inside s c -> List.length c = List.length s.
Proof. induction s as [|n s IH]; intros [|x c] H; cbn in *; try tauto. destruct H. f_equal; auto. Qed.

Lemma flat_lt s : forall c, inside s c -> flat s c < size_ s.
Proof.
  intros c H. rewrite <- cells_size. revert c H.
  induction s as [|n s IH]; intros [|x c] H; cbn in *; try tauto; [lia|].
  destruct H as [Hx H]. specialize (IH c H). nia.
Qed.

Lemma flat_surj s : forall i, i < size_ s -> exists c, inside s c /\ flat s c = i.
Proof.
  induction s as [|n s IH]; intros i Hi.
  - exists []. cbn in *. split; [exact I|lia].
  - change (size_ (n :: s)) with (n * size_ s) in Hi. assert (HP : 0 < size_ s) by (destruct (size_ s); lia).
    destruct (IH (i mod size_ s)) as [c [Hc Ec]]; [apply Nat.mod_upper_bound; lia|].
    exists ((i / size_ s) :: c). cbn [inside flat]. split; [split; [apply Nat.div_lt_upper_bound; lia|exact Hc]|].
    rewrite (cells_size s), Ec. pose proof (Nat.div_mod_eq i (size_ s)). nia.
Qed.

Lemma coord_flat s : forall c d, inside s c -> d < List.length s -> coord s (flat s c) d = nth d c 0.
Proof.
  unfold coord. induction s as [|n s IH]; intros [|x c] d H Hd; cbn [List.length inside] in *; try lia; try tauto.
  destruct H as [Hx H]. cbn [shifts setIndex flat]. change (fold_right Nat.mul 1 s) with (size_ s). rewrite (cells_size s).
  pose proof (flat_lt s c H) as L. rewrite div_same by exact L.
  replace (x * size_ s + flat s c - x * size_ s) with (flat s c) by lia.
  destruct d as [|d]; cbn [nth]; [reflexivity|]. apply IH; [exact H|lia].
Qed.

Lemma flat_inj s : forall c c', inside s c -> inside s c' -> flat s c = flat s c' -> c = c'.
Proof.
  intros c c' H H' E. pose proof (inside_len s c H) as L. pose proof (inside_len s c' H') as L'.
  apply nth_ext with (d := 0) (d' := 0); [congruence|].
  intros d Hd. rewrite <- (coord_flat s c d), <- (coord_flat s c' d) by (assumption || lia). rewrite E. reflexivity.
Qed.

Lemma next_flat s : forall d c c', inside s c -> next d c c' ->
  d < List.length s /\ flat s c' = flat s c + shift_ s d /\ nth d c' 0 = S (nth d c 0) /\ nth d c 0 < nth d s 0 /\
  (inside s c' <-> nth d c' 0 < nth d s 0).
Proof.
  unfold shift_. induction s as [|n s IH]; intros d c c' H N; destruct c as [|x c]; cbn [inside] in H; try tauto.
  - inversion N.
  - destruct H as [Hx H]. inversion N as [x0 c0 E1 E2 E3|d0 x0 c0 c0' N' E1 E2 E3]; subst.
    + cbn [List.length flat shifts nth inside]. change (fold_right Nat.mul 1 s) with (size_ s). rewrite (cells_size s).
      repeat split; try lia; try tauto.
    + destruct (IH d0 c c0' H N') as [A [B [C [D E]]]].
      cbn [List.length flat shifts nth inside]. rewrite B. repeat split; try lia; try tauto.
Qed.

Lemma next_ex s : forall c d, inside s c -> d < List.length s -> exists c', next d c c'.
Proof.
  induction s as [|n s IH]; intros [|x c] d H Hd; cbn in *; try lia; try tauto.
  destruct d as [|d]; [eexists; constructor|]. destruct (IH c d) as [c' N]; [tauto|lia|].
  exists (x :: c'). constructor; exact N.
Qed.
Lemma prev_ex s : forall c d, inside s c -> d < List.length s -> 0 < nth d c 0 -> exists c', inside s c' /\ next d c' c.
Proof.
  induction s as [|n s IH]; intros [|x c] d H Hd Hp; cbn [inside List.length] in *; try lia; try tauto.
  destruct d as [|d]; cbn [nth] in Hp.
  - destruct x as [|x]; [lia|]. exists (x :: c). split; [cbn; split; [lia|tauto]|constructor].
  - destruct (IH c d) as [c' [A N]]; [tauto|lia|exact Hp|].
    exists (x :: c'). split; [cbn; tauto|constructor; exact N].
Qed.

(** the marcher's neighbour function finds exactly the face neighbours *)
Lemma nb_nbr s c d n : inside s c -> d < List.length s ->
  ((exists j, In j dirs /\ nb s (flat s c) d j = Some n) <-> exists c', inside s c' /\ nbr d c c' /\ flat s c' = n).
Proof.
  intros Hc Hd. split.
  - intros [j [Hj E]]. unfold nb in E. rewrite coord_flat in E by assumption.
    destruct ((_ >=? _)%Z || _)%bool eqn:B; [discriminate|]. apply orb_false_iff in B. destruct B as [B1 B2].
    rewrite Z.geb_leb in B1. apply Z.leb_gt in B1. apply Z.ltb_ge in B2. injection E as <-.
    cbn in Hj. destruct Hj as [<-|[<-|[]]].
    + destruct (prev_ex s c d Hc Hd) as [c' [A N]]; [lia|].
      destruct (next_flat s d c' c A N) as [_ [F _]].
      exists c'. split; [exact A|]. split; [right; exact N|]. lia.
    + destruct (next_ex s c d Hc Hd) as [c' N]. destruct (next_flat s d c c' Hc N) as [_ [F [G [_ I]]]].
      exists c'. split; [apply I; lia|]. split; [left; exact N|]. lia.
  - intros [c' [A [[N|N] <-]]].
    + destruct (next_flat s d c c' Hc N) as [_ [F [G [K I]]]]. exists 1%Z. split; [cbn; auto|].
      unfold nb. rewrite coord_flat by assumption. apply I in A.
      replace ((_ >=? _)%Z || _)%bool with false; [f_equal; lia|]. symmetry. apply orb_false_iff. split.
      * rewrite Z.geb_leb. apply Z.leb_gt. lia.
      * apply Z.ltb_ge. lia.
    + destruct (next_flat s d c' c A N) as [_ [F [G [K I]]]]. exists (-1)%Z. split; [cbn; auto|].
      unfold nb. rewrite coord_flat by assumption.
      assert (nth d c 0 < nth d s 0) by (apply I; exact Hc).
      replace ((_ >=? _)%Z || _)%bool with false; [f_equal; lia|]. symmetry. apply orb_false_iff. split.
      * rewrite Z.geb_leb. apply Z.leb_gt. lia.
      * apply Z.ltb_ge. lia.
Qed.

Lemma nbr_dim s c d c' : inside s c -> inside s c' -> nbr d c c' -> d < List.length s.
Proof. intros H H' [N|N]; [apply (next_flat s d c c' H N)|apply (next_flat s d c' c H' N)]. Qed.

(** ** safety for every level set *)
Theorem fmm_safe_lemma shape dX phi : List.length shape <= 12 ->
  exists b, distance shape dX phi = Ok b /\ blen b = cells shape /\
    (forall c, inside shape c -> exists v, rd b (flat shape c) = Ok v).
Proof.
  intros H. destruct (solve_spec shape dX phi (fun _ _ _ => True)) as [b [D [E [[L Vb] _]]]]; auto.
  exists b. split; [exact E|]. split; [rewrite L, (cells_size shape); reflexivity|].
  intros c Hc. exists (D (flat shape c)). pose proof (flat_lt shape c Hc).
  apply rd_ok; [rewrite L; exact H0|]. apply Vb; exact H0.
Qed.

Section FMM6.
Variable shape : list nat.
Variable dX : list R.
Variable phi : nat -> R.
Let P (c : list nat) : R := phi (flat shape c).
Variable Hmax : R.
Hypothesis Hnd : List.length shape <= 2.
Hypothesis HdX : forall d, d < List.length shape -> (0 < nth d dX 0 <= Hmax)%R.
Hypothesis Hphi : forall c, inside shape c -> (P c <= 0 \/ doubleEpsilon < P c)%R.
Hypothesis Hbig : (Hmax * (INR (cells shape) + 1) < maxDouble)%R.
Hypothesis HmaxP : (0 < Hmax)%R.

Lemma Hphi' : forall i, i < size_ shape -> (phi i <= 0 \/ doubleEpsilon < phi i)%R.
Proof. intros i Hi. destruct (flat_surj shape i Hi) as [c [Hc <-]]. apply (Hphi c Hc). Qed.

Lemma face_crossing c d n : inside shape c ->
  ((exists j, face shape phi (flat shape c) d j n) <-> exists c', crossing shape P d c c' /\ flat shape c' = n).
Proof.
  intros Hc. unfold face, crossing, P. split.
  - intros [j [Hd [Hj [E L]]]]. destruct (proj1 (nb_nbr shape c d n Hc Hd)) as [c' [A [B <-]]]; [exists j; auto|].
    exists c'. auto.
  - intros [c' [[A [B L]] <-]]. pose proof (nbr_dim shape c d c' Hc A B) as Hd.
    destruct (proj2 (nb_nbr shape c d (flat shape c') Hc Hd)) as [j [Hj E]]; [exists c'; auto|].
    exists j. auto.
Qed.

Lemma F0_on c : inside shape c -> (F0 shape dX phi (flat shape c) = Frozen <-> on_interface shape P c).
Proof.
  intros Hc. rewrite (F0_spec shape dX phi Hmax HdX Hnd). unfold on_interface. split.
  - intros [Z|[d [j [n Hf]]]]; [left; exact Z|right].
    destruct (proj1 (face_crossing c d n Hc)) as [c' [A _]]; [exists j; exact Hf|]. exists d, c'. exact A.
  - intros [Z|[d [c' A]]]; [left; exact Z|right].
    destruct (proj2 (face_crossing c d (flat shape c') Hc)) as [j Hf]; [exists c'; auto|]. exists d, j, (flat shape c'). exact Hf.
Qed.

Lemma T0_initial c : inside shape c -> on_interface shape P c -> initial_value shape P dX c (T0 shape dX phi (flat shape c)).
Proof.
  intros Hc Ho. split.
  - intros Z. apply T0_zero. exact Z.
  - intros Nz. destruct Ho as [Z|[d [c' A]]]; [contradiction|].
    assert (Ex : exists d j n, face shape phi (flat shape c) d j n).
    { destruct (proj2 (face_crossing c d (flat shape c') Hc)) as [j Hf]; [exists c'; auto|]. exists d, j, (flat shape c'). exact Hf. }
    assert (Hb' : (Hmax * (INR (size_ shape) + 1) < maxDouble)%R) by (rewrite <- (cells_size shape); exact Hbig).
    destruct (T0_face shape dX phi Hmax HdX Hb' HmaxP Hnd (flat shape c) Ex) as [_ [[d1 [j1 [n1 [F1 E1]]]] Min]].
    split.
    + destruct (proj1 (face_crossing c d1 n1 Hc)) as [c1 [A1 <-]]; [exists j1; exact F1|].
      exists d1, c1. split; [exact A1|]. exact E1.
    + intros d2 c2 A2. destruct (proj2 (face_crossing c d2 (flat shape c2) Hc)) as [j2 F2]; [exists c2; auto|].
      exact (Min d2 j2 (flat shape c2) F2).
Qed.

Lemma interface_F0 : has_interface shape P -> exists i, i < size_ shape /\ F0 shape dX phi i = Frozen.
Proof.
  intros [[c [Hc Z]]|[d [c [c' [Hc A]]]]]; exists (flat shape c); (split; [apply flat_lt; exact Hc|]); apply F0_on; auto.
  - left; exact Z.
  - right. exists d, c'. exact A.
Qed.

Theorem fmm_signed_lemma : has_interface shape P ->
  exists b D, distance shape dX phi = Ok b /\
    (forall c, inside shape c -> rd b (flat shape c) = Ok (D c) /\
      same_side (P c) (D c) /\ (Rabs (D c) <= Hmax * INR (cells shape))%R /\
      (on_interface shape P c -> initial_value shape P dX c (D c))).
Proof.
  intros Hi. assert (Hb' : (Hmax * (INR (size_ shape) + 1) < maxDouble)%R) by (rewrite <- (cells_size shape); exact Hbig).
  destruct (fmm_main shape dX phi Hmax HdX Hphi' Hb' HmaxP Hnd ltac:(lia)) as [b [D [E [[L Vb] C]]]].
  exists b, (fun c => D (flat shape c)). split; [exact E|]. intros c Hc. pose proof (flat_lt shape c Hc) as Lc.
  split; [apply rd_ok; [rewrite L; exact Lc|apply Vb; exact Lc]|].
  destruct C as [[C _]|[_ C]].
  - exfalso. destruct (interface_F0 Hi) as [i [A B]]. rewrite (C i A) in B. discriminate.
  - destruct (C _ Lc) as [S [B I]]. split; [exact S|]. split; [rewrite (cells_size shape); exact B|].
    intros Ho. rewrite I by (apply F0_on; assumption). apply T0_initial; assumption.
Qed.

End FMM6.

(** ** the upwind equation, for equal spacings *)
Section FMM7.
Variable shape : list nat.
Variable dX : list R.
Variable phi : nat -> R.
Let P (c : list nat) : R := phi (flat shape c).
Variable h : R.
Hypothesis Hnd : List.length shape <= 2.
Hypothesis HdXe : forall d, d < List.length shape -> nth d dX 0%R = h.
Hypothesis Hphi : forall c, inside shape c -> (P c <= 0 \/ doubleEpsilon < P c)%R.
Hypothesis Hbig : (h * (INR (cells shape) + 1) < maxDouble)%R.
Hypothesis HmaxP : (0 < h)%R.

Lemma U_eikonal D c : inside shape c -> U shape dX (fun _ => Frozen) D (flat shape c) (Rabs (D (flat shape c))) = 1%R ->
  eikonal_at shape h (fun c => D (flat shape c)) c.
Proof.
  intros Hc E. exists (fun d => Cd shape (fun _ => Frozen) D (flat shape c) d (Rabs (D (flat shape c)))). split.
  - intros d Hd. destruct (Cd_char shape (fun _ => Frozen) D (flat shape c) d (Rabs (D (flat shape c)))) as [A [B C]].
    split; [exact A|]. split.
    + intros c' Hc' N. apply B. destruct (proj2 (nb_nbr shape c d (flat shape c') Hc Hd)) as [j [Hj Ej]]; [exists c'; auto|].
      exists j. auto.
    + destruct C as [C|[n [[j [Hj [En _]]] C]]]; [left; exact C|right].
      destruct (proj1 (nb_nbr shape c d n Hc Hd)) as [c' [X [Y <-]]]; [exists j; auto|]. exists c'. auto.
  - unfold U in E. unfold dims, dim_ in E.
    assert (G : forall l, (forall d, In d l -> d < List.length shape) ->
      sumr (fun d => (idx2 dX d * Cd shape (fun _ => Frozen) D (flat shape c) d (Rabs (D (flat shape c))) ^ 2)%R) l =
      (1 / h / h * fold_right Rplus 0 (map (fun d => Cd shape (fun _ => Frozen) D (flat shape c) d (Rabs (D (flat shape c))) ^ 2) l))%R).
    { induction l as [|d l IH]; intros Hl; cbn [sumr map fold_right]; [ring|].
      rewrite IH by (intros; apply Hl; right; assumption).
      unfold idx2. rewrite HdXe by (apply Hl; left; reflexivity). ring. }
    rewrite G in E by (intros d Hd; apply in_seq in Hd; lia).
    apply Rmult_eq_reg_l with (1 / h / h)%R.
    + rewrite E. field. lra.
    + apply Rgt_not_eq. replace (1 / h / h)%R with (/ h * / h)%R by (field; lra).
      apply Rmult_lt_0_compat; apply Rinv_0_lt_compat; lra.
Qed.

Theorem fmm_eikonal_lemma : has_interface shape P ->
  exists b D, distance shape dX phi = Ok b /\
    (forall c, inside shape c -> rd b (flat shape c) = Ok (D c) /\ same_side (P c) (D c) /\
      (on_interface shape P c -> initial_value shape P dX c (D c)) /\
      (~ on_interface shape P c -> eikonal_at shape h D c)).
Proof.
  intros Hi. assert (Hb' : (h * (INR (size_ shape) + 1) < maxDouble)%R) by (rewrite <- (cells_size shape); exact Hbig).
  assert (HdX' : forall d, d < List.length shape -> (0 < nth d dX 0 <= h)%R) by (intros d Hd; rewrite HdXe by exact Hd; lra).
  pose proof (Hphi' shape phi Hphi) as Hp.
  destruct (fmm_upwind shape dX phi h HdXe Hp Hb' HmaxP Hnd ltac:(lia)) as [b [D [E [[L Vb] C]]]].
  exists b, (fun c => D (flat shape c)). split; [exact E|]. intros c Hc. pose proof (flat_lt shape c Hc) as Lc.
  split; [apply rd_ok; [rewrite L; exact Lc|apply Vb; exact Lc]|].
  destruct C as [[C _]|[_ C]].
  - exfalso. destruct (interface_F0 shape dX phi h Hnd HdX' Hi) as [i [A B]]. rewrite (C i A) in B. discriminate.
  - destruct (C _ Lc) as [S [I G]]. split; [exact S|]. split.
    + intros Ho. rewrite I by (apply (F0_on shape dX phi h Hnd HdX'); assumption).
      apply (T0_initial shape dX phi h Hnd HdX' Hbig HmaxP); assumption.
    + intros Ho. apply U_eikonal; [exact Hc|]. apply G. intros X. apply Ho, (F0_on shape dX phi h Hnd HdX' c Hc). exact X.
Qed.
End FMM7.
