(** Fast marching: initial values, start of the invariants, upwind equation. *)
From Coq Require Import FunctionalExtensionality.
From Verif Require Import Base HeapModel HeapSpec HeapProof FmmModel FmmGrid FmmProof FmmProof2 FmmProof3.
Open Scope nat_scope.

Section FMM4.
Variable shape : list nat.
Variable dX : list R.
Variable phi : nat -> R.
Let sz := size_ shape.
Let nd := List.length shape.
Notation updv := (updv shape dX phi).
Notation bestv := (bestv shape).
Notation F0 := (F0 shape dX phi).
Notation T0 := (T0 shape dX phi).
Notation cnt := (cnt shape).
Notation fnb := (fnb shape).
Notation good := (good shape phi).
Notation Gabs := (Gabs shape dX).
Notation act := (act shape).

Variable Hmax : R.
Hypothesis HdX : forall d, d < nd -> (0 < nth d dX 0 <= Hmax)%R.
Hypothesis Hphi : forall i, i < sz -> (phi i <= 0 \/ doubleEpsilon < phi i)%R.
Hypothesis Hbig : (Hmax * (INR sz + 1) < maxDouble)%R.
Hypothesis HmaxP : (0 < Hmax)%R.
Hypothesis Hnd : nd <= 2.

(** a face of cell [i] (dimension [d], direction [j], cell [n] behind it) across which phi changes sign *)
Definition face (i d : nat) (j : Z) (n : nat) : Prop :=
  d < nd /\ In j dirs /\ nb shape i d j = Some n /\ (phi i * phi n < 0)%R.
(** linearly interpolated distance from the centre of [i] to the zero of phi on the way to [n] *)
Definition cd (i d n : nat) : R := (nth d dX 0 * Rabs (phi i) / (Rabs (phi i) + Rabs (phi n)))%R.

Lemma cd_eq i d n : (phi i * phi n < 0)%R ->
  (nth d dX 0 * phi i / (phi i - phi n) = cd i d n)%R.
Proof.
  intros H. unfold cd.
  destruct (Rtotal_order (phi i) 0) as [L|[L|L]]; [|rewrite L in H; lra|].
  - assert (0 < phi n)%R by nra. rewrite (Rabs_left (phi i)), (Rabs_right (phi n)) by lra. field. lra.
  - assert (phi n < 0)%R by nra. rewrite (Rabs_right (phi i)), (Rabs_left (phi n)) by lra. field. lra.
Qed.
Lemma cd_pos i d n : d < nd -> (phi i * phi n < 0)%R -> (0 < cd i d n < nth d dX 0)%R.
Proof.
  intros Hd H. destruct (HdX d Hd) as [P _]. unfold cd.
  assert (Pi : (0 < Rabs (phi i))%R) by (apply Rabs_pos_lt; intros E; rewrite E in H; lra).
  assert (Pn : (0 < Rabs (phi n))%R) by (apply Rabs_pos_lt; intros E; rewrite E in H; lra).
  split; [apply Rdiv_lt_0_compat; nra|].
  apply Rmult_lt_reg_r with (Rabs (phi i) + Rabs (phi n))%R; [lra|].
  replace (nth d dX 0 * Rabs (phi i) / (Rabs (phi i) + Rabs (phi n)) * (Rabs (phi i) + Rabs (phi n)))%R
    with (nth d dX 0 * Rabs (phi i))%R by (field; lra). nra.
Qed.

Lemma crossv_spec i d bo : d < nd ->
  let '(bo', ld) := crossv shape dX phi i d bo in
  (bo' = true <-> bo = true \/ exists j n, face i d j n) /\
  (((forall j n, ~ face i d j n) /\ ld = 0%R) \/
   ((exists j n, face i d j n /\ ld = cd i d n) /\ forall j n, face i d j n -> (ld <= cd i d n)%R)).
Proof.
  intros Hd. unfold crossv, dirs. cbn [fold_left].
  set (step := fun '(bo, ld) j =>
    match nb shape i d j with
    | None => (bo, ld)
    | Some n => if Rlt_dec (phi i * phi n) 0 then
         (true, if (Reqb ld 0 || Rltb (nth d dX 0 * phi i / (phi i - phi n))%R ld)%bool
                then (nth d dX 0 * phi i / (phi i - phi n))%R else ld)
       else (bo, ld)
    end).
  assert (Fa : forall j n, face i d j n <->
     (j = -1 \/ j = 1)%Z /\ nb shape i d j = Some n /\ (phi i * phi n < 0)%R).
  { intros j n. unfold face, dirs. cbn. split; [intros [_ [Hj [E L]]]; split; [lia|auto]|].
    intros [Hj [E L]]. split; [exact Hd|]. split; [lia|auto]. }
  assert (St : forall j b ld, In j dirs ->
    let '(b', ld') := step (b, ld) j in
    (exists n, nb shape i d j = Some n /\ (phi i * phi n < 0)%R /\ b' = true /\
       ((ld = 0%R /\ ld' = cd i d n) \/ (ld <> 0%R /\ ld' = Rmin ld (cd i d n)))) \/
    ((forall n, ~ face i d j n) /\ b' = b /\ ld' = ld)).
  { intros j b ld Hj. unfold step. destruct (nb shape i d j) as [n|] eqn:E.
    - destruct (Rlt_dec (phi i * phi n) 0) as [L|L].
      + left. exists n. split; [reflexivity|]. split; [exact L|]. split; [reflexivity|]. rewrite cd_eq by exact L.
        destruct (Reqb ld 0) eqn:Ez.
        * left. apply Reqb_true in Ez. auto.
        * right. apply Reqb_false in Ez. split; [exact Ez|]. cbn [orb]. unfold Rltb.
          destruct (Rlt_dec (cd i d n) ld); [rewrite Rmin_right; lra|rewrite Rmin_left; lra].
      + right. split; [|auto]. intros k Hk. apply Fa in Hk. destruct Hk as [_ [Ek Lk]]. congruence.
    - right. split; [|auto]. intros k Hk. apply Fa in Hk. destruct Hk as [_ [Ek Lk]]. congruence. }
  change (let '(bo', ld) := step (step (bo, 0%R) (-1)%Z) 1%Z in
    (bo' = true <-> bo = true \/ (exists j n, face i d j n)) /\
  (((forall j n, ~ face i d j n) /\ ld = 0%R) \/
   ((exists j n, face i d j n /\ ld = cd i d n) /\ forall j n, face i d j n -> (ld <= cd i d n)%R))).
  pose proof (St (-1)%Z bo 0%R ltac:(cbn; auto)) as S1. destruct (step (bo, 0%R) (-1)%Z) as [b1 l1].
  pose proof (St 1%Z b1 l1 ltac:(cbn; auto)) as S2. destruct (step (b1, l1) 1%Z) as [b2 l2]. clear St step.
  destruct S1 as [[n1 [E1 [L1 [-> C1]]]]|[N1 [-> ->]]].
  - destruct C1 as [[_ ->]|[X _]]; [|lra]. pose proof (cd_pos i d n1 Hd L1) as P1.
    assert (F1 : face i d (-1) n1) by (apply Fa; auto).
    destruct S2 as [[n2 [E2 [L2 [-> C2]]]]|[N2 [-> ->]]].
    + assert (F2 : face i d 1 n2) by (apply Fa; auto).
      destruct C2 as [[X _]|[_ ->]]; [lra|]. split; [split; [intros _; right; exists (-1)%Z, n1; exact F1|reflexivity]|].
      right. split.
      * unfold Rmin. destruct (Rle_dec (cd i d n1) (cd i d n2)); [exists (-1)%Z, n1|exists 1%Z, n2]; auto.
      * intros j n Hf. apply Fa in Hf. destruct Hf as [[-> | ->] [En _]].
        -- assert (n = n1) by congruence. subst. apply Rmin_l.
        -- assert (n = n2) by congruence. subst. apply Rmin_r.
    + split; [split; [intros _; right; exists (-1)%Z, n1; exact F1|reflexivity]|]. right. split.
      * exists (-1)%Z, n1. auto.
      * intros j n Hf. pose proof Hf as Hf'. apply Fa in Hf. destruct Hf as [[-> | ->] [En _]].
        -- assert (n = n1) by congruence. subst. lra.
        -- exfalso. apply (N2 n Hf').
  - destruct S2 as [[n2 [E2 [L2 [-> C2]]]]|[N2 [-> ->]]].
    + assert (F2 : face i d 1 n2) by (apply Fa; auto).
      destruct C2 as [[_ ->]|[X _]]; [|lra]. split; [split; [intros _; right; exists 1%Z, n2; exact F2|reflexivity]|].
      right. split; [exists 1%Z, n2; auto|]. intros j n Hf. pose proof Hf as Hf'. apply Fa in Hf. destruct Hf as [[-> | ->] [En _]].
      * exfalso. apply (N1 n Hf').
      * assert (n = n2) by congruence. subst. lra.
    + assert (Nf : forall j n, ~ face i d j n).
      { intros j n Hf. pose proof Hf as Hf'. apply Fa in Hf. destruct Hf as [[-> | ->] _]; [apply (N1 n Hf')|apply (N2 n Hf')]. }
      split; [|left; auto]. split; [auto|]. intros [X|[j [n X]]]; [exact X|exfalso; apply (Nf j n X)].
Qed.

Lemma crossAllv_spec i l : forall bo lds, (forall d, In d l -> d < nd) ->
  let '(bo', lds') := crossAllv shape dX phi i l (bo, lds) in
  (bo' = true <-> bo = true \/ exists d j n, In d l /\ face i d j n) /\
  exists ls, lds' = lds ++ ls /\
    (forall x, In x ls -> x = 0%R \/ exists d j n, In d l /\ face i d j n /\ x = cd i d n) /\
    (forall d j n, In d l -> face i d j n -> exists x, In x ls /\ (x <= cd i d n)%R /\ x <> 0%R).
Proof.
  induction l as [|d l IH]; intros bo lds Hl; cbn [crossAllv fold_left].
  - split; [split; [auto|intros [X|[d [j [n [[] _]]]]]; exact X]|].
    exists []. rewrite app_nil_r. split; [reflexivity|]. split; [intros x []|intros d j n []].
  - pose proof (crossv_spec i d bo (Hl d (or_introl eq_refl))) as C.
    destruct (crossv shape dX phi i d bo) as [b1 ld]. destruct C as [C1 C2].
    specialize (IH b1 (lds ++ [ld]) (fun e He => Hl e (or_intror He))). unfold crossAllv in IH.
    destruct (fold_left _ l _) as [b2 lds2]. destruct IH as [I1 [ls [-> [I2 I3]]]].
    split.
    + rewrite I1, C1. split.
      * intros [[X|[j [n X]]]|[e [j [n [X Y]]]]]; [auto|right; exists d, j, n; split; [left; reflexivity|exact X]|
          right; exists e, j, n; split; [right; exact X|exact Y]].
      * intros [X|[e [j [n [[<-|X] Y]]]]]; [auto|left; right; exists j, n; exact Y|right; exists e, j, n; auto].
    + exists (ld :: ls). rewrite <- app_assoc. split; [reflexivity|]. split.
      * intros x [<-|Hx].
        -- destruct C2 as [[_ ->]|[[j [n [X ->]]] _]]; [left; reflexivity|right]. exists d, j, n. split; [left; reflexivity|auto].
        -- destruct (I2 x Hx) as [X|[e [j [n [X Y]]]]]; [left; exact X|right]. exists e, j, n. split; [right; exact X|exact Y].
      * intros e j n [<-|Hin] Hf.
        -- exists ld. split; [left; reflexivity|]. destruct C2 as [[N _]|[[j' [n' [X ->]]] Y]]; [exfalso; apply (N j n Hf)|].
           split; [apply (Y j n Hf)|]. destruct X as [Xd [_ [_ X]]]. pose proof (cd_pos i d n' Xd X). lra.
        -- destruct (I3 e j n Hin Hf) as [x [X Y]]. exists x. split; [right; exact X|exact Y].
Qed.

Lemma minDist_spec lds : (minDist lds <= maxDouble)%R /\
  (minDist lds = maxDouble \/ exists x, In x lds /\ (0 < Rabs x)%R /\ minDist lds = Rabs x) /\
  (forall x, In x lds -> x <> 0%R -> (minDist lds <= Rabs x)%R).
Proof.
  unfold minDist.
  assert (G : forall l m, let r := fold_left (fun m ld => let dist := Rabs ld in
     if Rlt_dec 0 dist then (if Rlt_dec dist m then dist else m) else m) l m in
     (r <= m)%R /\ (r = m \/ exists x, In x l /\ (0 < Rabs x)%R /\ r = Rabs x) /\
     (forall x, In x l -> x <> 0%R -> (r <= Rabs x)%R)).
  { induction l as [|a l IH]; intros m; cbn [fold_left].
    - split; [lra|]. split; [left; reflexivity|intros x []].
    - cbv zeta. cbv zeta in IH. destruct (Rlt_dec 0 (Rabs a)) as [P|P]; [destruct (Rlt_dec (Rabs a) m) as [Q|Q]|].
      + destruct (IH (Rabs a)) as [A [B C]]. set (r := fold_left _ l (Rabs a)) in *. split; [lra|]. split.
        * destruct B as [->|[x [X1 [X2 X3]]]]; right; [exists a; cbn; auto|exists x; cbn; auto].
        * intros x [<-|Hx] Nx; [exact A|auto].
      + destruct (IH m) as [A [B C]]. set (r := fold_left _ l m) in *. split; [lra|]. split.
        * destruct B as [->|[x [X1 [X2 X3]]]]; [left; reflexivity|right; exists x; cbn; auto].
        * intros x [<-|Hx] Nx; [lra|auto].
      + destruct (IH m) as [A [B C]]. set (r := fold_left _ l m) in *. split; [lra|]. split.
        * destruct B as [->|[x [X1 [X2 X3]]]]; [left; reflexivity|right; exists x; cbn; auto].
        * intros x [<-|Hx] Nx; [exfalso; apply P; apply Rabs_pos_lt; exact Nx|auto]. }
  apply G.
Qed.

Lemma borderb_spec i : borderb shape dX phi i = true <-> exists d j n, face i d j n.
Proof.
  unfold borderb. pose proof (crossAllv_spec i (dims shape) false []) as C.
  destruct (crossAllv shape dX phi i (dims shape) (false, [])) as [b l].
  destruct C as [C _]; [intros d Hd; apply in_dims; exact Hd|]. cbn [fst]. rewrite C. split.
  - intros [X|[d [j [n [_ X]]]]]; [discriminate|exists d, j, n; exact X].
  - intros [d [j [n X]]]. right. exists d, j, n. split; [apply in_dims; apply X|exact X].
Qed.

Lemma F0_spec i : F0 i = Frozen <-> phi i = 0%R \/ exists d j n, face i d j n.
Proof.
  unfold FmmProof2.F0. destruct (Reqb (phi i) 0) eqn:E; cbn [orb].
  - apply Reqb_true in E. split; auto.
  - apply Reqb_false in E. destruct (borderb shape dX phi i) eqn:B.
    + apply borderb_spec in B. split; auto.
    + split; [discriminate|]. intros [X|X]; [contradiction|]. apply borderb_spec in X. congruence.
Qed.

Lemma T0_zero i : phi i = 0%R -> T0 i = 0%R.
Proof. intros E. unfold FmmProof2.T0. rewrite (proj2 (Reqb_true _ _) E). reflexivity. Qed.

Lemma Hmax_lt : (Hmax < maxDouble)%R.
Proof. assert (0 <= INR sz)%R by apply pos_INR. nra. Qed.

Lemma T0_face i : (exists d j n, face i d j n) ->
  sgn_ok (phi i) (T0 i) /\ (exists d j n, face i d j n /\ Rabs (T0 i) = cd i d n) /\
  (forall d j n, face i d j n -> (Rabs (T0 i) <= cd i d n)%R).
Proof.
  intros Ex. assert (Np : phi i <> 0%R).
  { destruct Ex as [d [j [n [_ [_ [_ X]]]]]]. intros E. rewrite E in X. lra. }
  pose proof Hmax_lt as Hm. pose proof Ex as Ex'. apply borderb_spec in Ex'.
  unfold FmmProof2.T0. rewrite (proj2 (Reqb_false _ _) Np), Ex'.
  pose proof (crossAllv_spec i (dims shape) false []) as C.
  destruct (crossAllv shape dX phi i (dims shape) (false, [])) as [b lds]. cbn [snd].
  destruct C as [_ [ls [-> [C2 C3]]]]; [intros d Hd; apply in_dims; exact Hd|]. cbn [app].
  destruct (minDist_spec ls) as [M1 [M2 M3]]. set (m := minDist ls) in *.
  assert (Up : forall d j n, face i d j n -> (m <= cd i d n)%R).
  { intros d j n Hf. destruct (C3 d j n) as [x [X1 [X2 X3]]]; [apply in_dims; apply Hf|exact Hf|].
    specialize (M3 x X1 X3). destruct (C2 x X1) as [X|[d' [j' [n' [_ [Hf' E]]]]]]; [contradiction|].
    destruct Hf' as [Hd' [_ [_ L']]]. pose proof (cd_pos i d' n' Hd' L').
    rewrite (Rabs_right x) in M3 by lra. lra. }
  assert (At : exists d j n, face i d j n /\ m = cd i d n).
  { destruct M2 as [M2|[x [X1 [X2 X3]]]].
    - exfalso. destruct Ex as [d [j [n Hf]]]. specialize (Up d j n Hf). destruct Hf as [Hd [_ [_ L]]].
      pose proof (cd_pos i d n Hd L). destruct (HdX d Hd). lra.
    - destruct (C2 x X1) as [X|[d' [j' [n' [_ [Hf' E]]]]]]; [rewrite X, Rabs_R0 in X2; lra|].
      exists d', j', n'. split; [exact Hf'|]. rewrite X3, E. apply Rabs_right.
      destruct Hf' as [Hd' [_ [_ L']]]. pose proof (cd_pos i d' n' Hd' L'). lra. }
  assert (Mp : (0 < m)%R).
  { destruct At as [d [j [n [[Hd [_ [_ L]]] ->]]]]. apply (cd_pos i d n Hd L). }
  assert (Ea : Rabs (if Rlt_dec (phi i) 0 then - m else m)%R = m).
  { destruct (Rlt_dec (phi i) 0); [rewrite Rabs_Ropp|]; apply Rabs_right; lra. }
  rewrite Ea. split; [|split; [exact At|exact Up]].
  unfold sgn_ok. destruct (Rlt_dec (phi i) 0); repeat split; intros; lra.
Qed.

Lemma T0_abs i : F0 i = Frozen -> sgn_ok (phi i) (T0 i) /\
  ((Rabs (T0 i) = 0)%R \/ exists d, d < nd /\ (0 < Rabs (T0 i) < nth d dX 0)%R).
Proof.
  intros E. apply F0_spec in E. destruct E as [E|E].
  - rewrite (T0_zero i E). unfold sgn_ok. rewrite Rabs_R0. split; [repeat split; intros; lra|left; reflexivity].
  - destruct (T0_face i E) as [A [[d [j [n [B ->]]]] _]]. split; [exact A|]. right. exists d.
    destruct B as [Hd [_ [_ L]]]. split; [exact Hd|]. apply cd_pos; assumption.
Qed.

(** in at most two dimensions: when the update has a root *)
Lemma dims_cases : dims shape = [] \/ (dims shape = [0] /\ 0 < nd) \/ (dims shape = [0; 1] /\ 1 < nd).
Proof.
  unfold dims, dim_. fold nd. destruct nd as [|[|[|k]]] eqn:E; cbn; auto. lia.
Qed.

Lemma Gabs_small F T i : good F T i ->
  (act F T i 0 = true -> act F T i 1 = true -> 1 < nd ->
     ((Rabs (bestv F T i 0) - Rabs (bestv F T i 1)) ^ 2 < nth 0 dX 0 ^ 2 + nth 1 dX 0 ^ 2)%R) ->
  exists r, (Gabs F T i r < 1)%R.
Proof.
  intros G Hs. unfold FmmProof3.Gabs. destruct dims_cases as [->|[[-> H0]|[-> H1]]]; cbn [sumr].
  - exists 0%R. lra.
  - exists (Rabs (bestv F T i 0)). destruct (act F T i 0); [|lra].
    replace (Rabs (bestv F T i 0) - Rabs (bestv F T i 0))%R with 0%R by ring. lra.
  - set (u := Rabs (bestv F T i 0)) in *. set (v := Rabs (bestv F T i 1)) in *.
    destruct (act F T i 0) eqn:A0; destruct (act F T i 1) eqn:A1.
    + specialize (Hs eq_refl eq_refl H1).
      destruct (HdX 0 ltac:(lia)) as [P0 _]. destruct (HdX 1 ltac:(lia)) as [P1 _]. unfold idx2.
      set (h := nth 0 dX 0%R) in *. set (k := nth 1 dX 0%R) in *.
      exists ((u * k ^ 2 + v * h ^ 2) / (h ^ 2 + k ^ 2))%R.
      assert (Pk : (0 < h ^ 2 + k ^ 2)%R) by nra.
      replace (1 / h / h * ((u * k ^ 2 + v * h ^ 2) / (h ^ 2 + k ^ 2) - u) ^ 2 +
        (1 / k / k * ((u * k ^ 2 + v * h ^ 2) / (h ^ 2 + k ^ 2) - v) ^ 2 + 0))%R
        with ((u - v) ^ 2 / (h ^ 2 + k ^ 2))%R by (field; repeat split; lra).
      apply Rmult_lt_reg_r with (h ^ 2 + k ^ 2)%R; [exact Pk|].
      replace ((u - v) ^ 2 / (h ^ 2 + k ^ 2) * (h ^ 2 + k ^ 2))%R with ((u - v) ^ 2)%R by (field; lra). lra.
    + exists u. replace (u - u)%R with 0%R by ring. lra.
    + exists v. replace (v - v)%R with 0%R by ring. lra.
    + exists 0%R. lra.
Qed.

Lemma NB_good F T i : NB shape dX phi (fun _ => True) F T -> (forall k, k < sz -> F k <> Mask) -> i < sz ->
  F i = Narrow -> good F T i /\ updv F T i <> 0%R /\ T i = updv F T i.
Proof.
  intros N NM Hi Fi. destruct (nb_narrow _ _ _ _ _ _ N i Hi Fi) as [Fi0 [[d [j [n [Hd [Hj [En Fn]]]]]] Ti]].
  assert (Nf : ~ (phi i = 0%R \/ exists d j n, face i d j n)) by (intros X; apply F0_spec in X; congruence).
  assert (Fr : forall e b, e < nd -> fnb F i e b -> F0 b = Frozen /\ b < sz /\ T b = T0 b /\ (0 <= phi i * phi b)%R).
  { intros e b He [k [Hk [Eb Fb]]]. assert (Hb : b < sz) by (apply (nb_lt shape i e k b Hk Hi He Eb)).
    assert (X : F0 b = Frozen) by (apply (nb_froz _ _ _ _ _ _ N b Hb); exact Fb).
    split; [exact X|]. split; [exact Hb|]. split; [apply (nb_keep _ _ _ _ _ _ N b Hb X)|].
    destruct (Rle_dec 0 (phi i * phi b)) as [L|L]; [exact L|]. exfalso. apply Nf. right. exists e, k, b.
    split; [exact He|]. split; [exact Hk|]. split; [exact Eb|lra]. }
  assert (Nz : phi i <> 0%R) by tauto.
  assert (Ab : forall e b, e < nd -> fnb F i e b ->
     ((Rabs (T b) = 0)%R \/ exists d, d < nd /\ (0 < Rabs (T b) < nth d dX 0)%R) /\ sgn_ok (phi b) (T b)).
  { intros e b He Hb. destruct (Fr e b He Hb) as [X1 [X2 [X3 X4]]]. destruct (T0_abs b X1) as [Y1 Y2].
    rewrite X3. auto. }
  assert (G : good F T i).
  { split; [destruct (Hphi i Hi) as [L|L]; [left; lra|right; exact L]|]. split.
    - exists d, n. split; [exact Hd|]. exists j. split; [exact Hj|]. split; [exact En|].
      apply (nb_froz _ _ _ _ _ _ N n); [apply (nb_lt shape i d j n Hj Hi Hd En)|exact Fn].
    - intros e b He Hb. destruct (Fr e b He Hb) as [X1 [X2 [X3 X4]]]. destruct (Ab e b He Hb) as [Y1 [S1 [S2 S3]]].
      pose proof Hmax_lt. split.
      + destruct Y1 as [->|[d' [Hd' Y]]]; [pose proof maxDouble_pos; lra|]. destruct (HdX d' Hd'). lra.
      + split; intros Hp.
        * destruct (Rtotal_order (phi b) 0) as [L|[L|L]]; [specialize (S2 L); lra|specialize (S3 L); lra|nra].
        * destruct (Rtotal_order (phi b) 0) as [L|[L|L]]; [nra|specialize (S3 L); lra|specialize (S1 L); lra]. }
  split; [exact G|].
  assert (E : updv F T i = updv F0 T0 i) by (apply (updv_NB shape dX phi (fun _ => True)); auto).
  split; [|rewrite Ti, E; reflexivity].
  destruct (upd_abs shape dX phi Hmax HdX F T i G) as [[_ Z]|[Z _]]; [|exact Z].
  destruct (Gabs_small F T i G) as [r Hr]; [|specialize (Z r); lra].
  intros A0 A1 H1.
  destruct (act_spec shape phi F T i 0 G ltac:(fold nd; lia) A0) as [b [Hb [-> _]]].
  destruct (act_spec shape phi F T i 1 G H1 A1) as [c [Hc [-> _]]].
  destruct (Ab 0 b ltac:(lia) Hb) as [Yb _]. destruct (Ab 1 c H1 Hc) as [Yc _].
  destruct (HdX 0 ltac:(lia)) as [P0 _]. destruct (HdX 1 H1) as [P1 _].
  assert (M : forall t, ((t = 0)%R \/ exists d, d < nd /\ (0 < t < nth d dX 0)%R) ->
    (0 <= t)%R /\ ((t < nth 0 dX 0)%R \/ (t < nth 1 dX 0)%R)).
  { intros t [->|[e [He [L1 L2]]]]; [split; [lra|left; lra]|]. split; [lra|].
    destruct e as [|[|e]]; [left; exact L2|right; exact L2|lia]. }
  destruct (M _ Yb) as [B1 B2]. destruct (M _ Yc) as [C1 C2].
  set (u := Rabs (T b)) in *. set (v := Rabs (T c)) in *.
  set (h := nth 0 dX 0%R) in *. set (k := nth 1 dX 0%R) in *.
  assert (-(h + k) < 0)%R by lra.
  assert (((u - v) ^ 2 < h ^ 2)%R \/ ((u - v) ^ 2 < k ^ 2)%R) as [X|X].
  { destruct (Rle_dec h k).
    - right. assert (u < k)%R by lra. assert (v < k)%R by lra. nra.
    - left. assert (u < h)%R by lra. assert (v < h)%R by lra. nra. }
  - nra.
  - nra.
Qed.

Lemma cnt_pos F i : i < sz -> F i = Frozen -> (1 <= INR (cnt Frozen F))%R.
Proof.
  intros Hi Fi. change 1%R with (INR 1). apply le_INR.
  pose proof (cnt_leave shape Frozen F i Far Hi Fi ltac:(congruence)). lia.
Qed.

Lemma V1_init F T : NB shape dX phi (fun _ => True) F T -> (forall k, k < sz -> F k <> Mask) ->
  (exists i, i < sz /\ F0 i = Frozen) -> V1 shape dX phi Hmax [] F T.
Proof.
  intros N NM [i0 [Hi0 Fi0]]. pose proof (nb_froz _ _ _ _ _ _ N) as Fr. pose proof (nb_keep _ _ _ _ _ _ N) as Kp.
  pose proof (cnt_pos F i0 Hi0 (proj2 (Fr i0 Hi0) Fi0)) as Cp.
  assert (TB : forall i, i < sz -> F0 i = Frozen -> (Rabs (T i) <= Hmax)%R).
  { intros i Hi Fi. rewrite (Kp i Hi Fi). destruct (T0_abs i Fi) as [_ [->|[d [Hd L]]]]; [lra|]. destruct (HdX d Hd). lra. }
  constructor.
  - intros i Hi Ni. destruct (F i) eqn:E; [congruence| | |exfalso; apply (NM i Hi E)].
    + destruct (NB_good F T i N NM Hi E) as [G [Z ->]].
      destruct (upd_abs shape dX phi Hmax HdX F T i G) as [[Z' _]|[_ [S _]]]; [contradiction|exact S].
    + rewrite (Kp i Hi) by (apply Fr; assumption). apply T0_abs. apply Fr; assumption.
  - intros i Hi Ni. assert (Nf : ~ (phi i = 0%R \/ exists d j n, face i d j n)).
    { intros X. apply F0_spec in X. apply Ni, Fr; assumption. }
    split; [tauto|]. intros d j n Hd Hj En. destruct (Rle_dec 0 (phi i * phi n)) as [L|L]; [exact L|].
    exfalso. apply Nf. right. exists d, j, n. split; [exact Hd|]. split; [exact Hj|]. split; [exact En|lra].
  - intros i Hi Fi. pose proof (TB i Hi (proj1 (Fr i Hi) Fi)). nra.
  - intros i Hi Fi. destruct (NB_good F T i N NM Hi Fi) as [G [_ ->]].
    pose proof G as [_ [[d [n [Hd Hn]]] _]].
    pose proof (upd_bound shape dX phi Hmax HdX F T i d n G Hd Hn) as B. destruct (HdX d Hd).
    destruct Hn as [j [Hj [En Fn]]]. assert (Hnn : n < sz) by (apply (nb_lt shape i d j n Hj Hi Hd En)).
    pose proof (TB n Hnn (proj1 (Fr n Hnn) Fn)). nra.
  - intros a d j n Ha Hd Hj En Fa Fn. exfalso.
    assert (Hnn : n < sz) by (apply (nb_lt shape a d j n Hj Ha Hd En)).
    apply (nb_done _ _ _ _ _ _ N n Hnn I Fn). exists d, (- j)%Z, a. split; [exact Hd|].
    split; [apply dirs_opp; exact Hj|]. split; [apply (nb_in shape a d j n (dirs_pm j Hj) Ha Hd En)|apply Fr; assumption].
  - intros a d j b e k [].
  - intros i Hi Fi. split; [apply Fr; assumption|apply Kp; assumption].
  - exact NM.
  - exists i0. split; [exact Hi0|apply Fr; assumption].
Qed.

Definition Vs (todo : list (nat * nat * Z)) F T : Prop := V1 shape dX phi Hmax todo F T.

Theorem fmm_main : List.length shape <= 12 ->
  exists b D, distance shape dX phi = Ok b /\ view sz b D /\
    (((forall i, i < sz -> F0 i = Far) /\ (forall i, i < sz -> D i = 0%R)) \/
     ((exists i, i < sz /\ F0 i = Frozen) /\
      (forall i, i < sz -> sgn_ok (phi i) (D i) /\ (Rabs (D i) <= Hmax * INR sz)%R /\ (F0 i = Frozen -> D i = T0 i)))).
Proof.
  intros Hl.
  destruct (solve_spec shape dX phi Vs) as [b [D [E [Vb C]]]]; unfold Vs.
  - intros todo F T i W Hi Fi Min Eq. apply V1_pop; assumption.
  - intros a d j todo F T W Ha Hd Hj H. apply (V1_drop shape dX phi Hmax a d j); [exact W|].
    intros n En. rewrite (H n En). discriminate.
  - intros a d j todo F T n W Ha Hd Hj En Fn Z.
    apply (V1_zero shape dX phi Hmax HdX Hphi Hbig HmaxP a d j todo F T n W Ha Hd Hj En Fn Z).
  - intros a d j todo F T n W Ha Hd Hj En Fn Z. apply (V1_narrow_same shape dX phi Hmax _ _ _ n Fn).
    apply (V1_write shape dX phi Hmax HdX Hphi Hbig HmaxP a d j todo F T n); auto.
  - intros a d j todo F T n W Ha Hd Hj En Fn Z.
    apply (V1_write shape dX phi Hmax HdX Hphi Hbig HmaxP a d j todo F T n); auto.
  - intros F T N Ex. apply V1_init; auto. intros k Hk X.
    (* no Mask: from NB every cell is Frozen, Narrow or Far by the machine invariant *)
    exact (nb_nomask _ _ _ _ _ _ N k Hk X).
  - exact Hl.
  - exists b, D. split; [exact E|]. split; [exact Vb|]. destruct C as [C|[Ex [F [T [W [Fc Dc]]]]]]; [left; exact C|right].
    split; [exact Ex|].
    assert (All : forall i, i < sz -> F i = Frozen).
    { destruct (v_some _ _ _ _ _ _ _ W) as [i0 [Hi0 Fi0]].
      apply (grid_connected shape (fun i => F i = Frozen)) with (i0 := i0); auto.
      intros i d j n Hj Hi Hd En Fi.
      assert (Hj' : In j dirs) by (unfold dirs; cbn; lia).
      destruct (Fc n (nb_lt shape i d j n Hj' Hi Hd En)) as [X|X]; [|exact X].
      exfalso. apply (v_reach _ _ _ _ _ _ _ W i d j n Hi Hd Hj' En Fi X). }
    intros i Hi. rewrite (Dc i Hi), (All i Hi). split; [|split].
    + apply (v_sgn _ _ _ _ _ _ _ W i Hi). rewrite (All i Hi). discriminate.
    + pose proof (v_bf _ _ _ _ _ _ _ W i Hi (All i Hi)).
      assert (INR (cnt Frozen F) <= INR sz)%R by (apply le_INR, cnt_le). nra.
    + intros X. apply (v_init _ _ _ _ _ _ _ W i Hi X).
Qed.

End FMM4.
