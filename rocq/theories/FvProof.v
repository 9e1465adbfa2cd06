(** Which updates each cell receives, in order. *)
From Coq Require Import List Lia.
From Verif Require Import Base FvModel.
Import List ListNotations.
Open Scope nat_scope.

Section P.
Context {T blk : Type}.
Notation update := (update T).

(** updates of cell c, in order *)
Definition at_cell (c : nat) (l : list update) : list (T -> T) := map snd (filter (fun p => Nat.eqb (fst p) c) l).
Definition run (l : list (T -> T)) (x : T) : T := fold_left (fun x f => f x) l x.

Lemma at_app c a b : at_cell c (a ++ b) = at_cell c a ++ at_cell c b.
Proof. unfold at_cell. now rewrite filter_app, map_app. Qed.
Lemma at_map c i (l : list (T -> T)) : at_cell c (map (fun e => (i, e)) l) = if Nat.eqb i c then l else [].
Proof. unfold at_cell. induction l as [|e l IH]; cbn; [now destruct (i =? c)|]. destruct (i =? c); cbn; [now rewrite IH|exact IH]. Qed.
Lemma at_cons c a e l : at_cell c ((a, e) :: l) = (if Nat.eqb a c then [e] else []) ++ at_cell c l.
Proof. unfold at_cell. cbn. destruct (a =? c); reflexivity. Qed.

Lemma for_ops_ok n : forall lo (f : nat -> res (list update)) L, (forall i, lo <= i < lo + n -> f i = Ok (L i)) ->
  for_ops n lo f = Ok (flat_map L (seq lo n)).
Proof.
  induction n as [|n IH]; intros lo f L H; cbn [for_ops seq flat_map]; [reflexivity|].
  rewrite (H lo) by lia. cbn [bind]. rewrite (IH (S lo) f L) by (intros; apply H; lia). reflexivity.
Qed.
Lemma for_ops_inv n : forall lo (f : nat -> res (list update)) l, for_ops n lo f = Ok l ->
  exists L, (forall i, lo <= i < lo + n -> f i = Ok (L i)) /\ l = flat_map L (seq lo n).
Proof.
  induction n as [|n IH]; intros lo f l E; cbn [for_ops] in E.
  - injection E as <-. exists (fun _ => []). split; [intros; lia|reflexivity].
  - apply bind_ok in E. destruct E as [a [Ea E]]. apply bind_ok in E. destruct E as [b [Eb E]]. injection E as <-.
    destruct (IH (S lo) f b Eb) as [L [HL ->]]. exists (fun i => if Nat.eqb i lo then a else L i). split.
    + intros i Hi. destruct (Nat.eqb_spec i lo) as [->|Ne]; [exact Ea|apply HL; lia].
    + cbn [seq flat_map]. rewrite Nat.eqb_refl. f_equal. rewrite !flat_map_concat_map. f_equal. apply map_ext_in. intros i Hi. apply in_seq in Hi.
      destruct (Nat.eqb_spec i lo); [lia|reflexivity].
Qed.

Lemma at_flat c (L : nat -> list update) l : at_cell c (flat_map L l) = flat_map (fun i => at_cell c (L i)) l.
Proof. induction l as [|i l IH]; cbn [flat_map]; [reflexivity|]. now rewrite at_app, IH. Qed.

Lemma flat_none {A} (g : nat -> list A) l : (forall i, In i l -> g i = []) -> flat_map g l = [].
Proof. induction l as [|a l IH]; intros H; cbn; [reflexivity|]. rewrite H by now left. apply IH. intros; apply H; now right. Qed.
Lemma flat_ext {A} (g h : nat -> list A) l : (forall i, In i l -> g i = h i) -> flat_map g l = flat_map h l.
Proof. induction l as [|a l IH]; intros H; cbn; [reflexivity|]. rewrite H by now left. f_equal. apply IH. intros; apply H; now right. Qed.
Lemma flat_one {A} (g : nat -> list A) n k : k < n -> (forall i, i < n -> i <> k -> g i = []) -> flat_map g (seq 0 n) = g k.
Proof.
  intros Hk H. replace n with (k + S (n - k - 1)) by lia. rewrite seq_app, flat_map_app.
  rewrite flat_none by (intros i Hi; apply in_seq in Hi; apply H; lia). cbn [app seq flat_map Nat.add].
  rewrite (flat_none g (seq (S k) _)) by (intros i Hi; apply in_seq in Hi; apply H; lia). apply app_nil_r.
Qed.
Lemma flat_two {A} (g : nat -> list A) n k : S k < n -> (forall i, i < n -> i <> k -> i <> S k -> g i = []) -> flat_map g (seq 0 n) = g k ++ g (S k).
Proof.
  intros Hk H. replace n with (k + S (S (n - k - 2))) by lia. rewrite seq_app, flat_map_app.
  rewrite flat_none by (intros i Hi; apply in_seq in Hi; apply H; lia). cbn [app seq flat_map Nat.add].
  rewrite (flat_none g (seq (S (S k)) _)) by (intros i Hi; apply in_seq in Hi; apply H; lia). now rewrite app_nil_r.
Qed.

(** performing updates *)
Lemma updates_run l : forall (u : buf T) (x : nat -> T), (forall p, In p l -> fst p < blen u) ->
  (forall c, c < blen u -> bdat u c = Some (x c)) ->
  exists u', fold_res do_update l u = Ok u' /\ blen u' = blen u /\ forall c, c < blen u -> bdat u' c = Some (run (at_cell c l) (x c)).
Proof.
  induction l as [|[a e] l IH]; intros u x Hb Hx; cbn [fold_res].
  - exists u. split; [reflexivity|]. split; [reflexivity|]. intros c Hc. apply Hx, Hc.
  - pose proof (Hb (a, e) ltac:(now left)) as Ha. cbn [fst] in Ha.
    unfold do_update at 1. cbn [fst snd]. rewrite (rd_ok u a (x a) Ha (Hx a Ha)). cbn [bind]. rewrite wr_ok by exact Ha. cbn [bind].
    destruct (IH (mkbuf (blen u) (upd (bdat u) a (Some (e (x a))))) (upd x a (e (x a)))) as [u' [E [L V]]].
    + intros p Hp. apply Hb. now right.
    + cbn [blen bdat]. intros c Hc. unfold upd. destruct (c =? a); [reflexivity|apply Hx, Hc].
    + exists u'. split; [exact E|]. split; [exact L|]. intros c Hc. rewrite V by exact Hc. f_equal. rewrite at_cons.
      unfold run. rewrite fold_left_app. f_equal. unfold upd. rewrite (Nat.eqb_sym a c). destruct (Nat.eqb_spec c a) as [->|Ne]; reflexivity.
Qed.

Section Code.
Variables (N : nat) (center : nat -> blk -> res (list (T -> T))) (face : nat -> nat -> blk -> blk -> res ((T -> T) * (T -> T))).
Notation nt_of := (nt_of N).

(** ** one dimension *)
(** increments of one cell, of one face *)
Definition cell_at (rec : buf blk) (mask : buf bool) (a r t : nat) : res (list (T -> T)) :=
  m <- rd mask a ;; if (m : bool) then q <- rd rec r ;; center t q else Ok [].
Definition face_at (rec : buf blk) (mask : buf bool) (d a0 a1 r0 r1 t : nat) : res (option ((T -> T) * (T -> T))) :=
  m0 <- rd mask a0 ;; if (m0 : bool) then m1 <- rd mask a1 ;; if (m1 : bool) then
    ql <- rd rec r0 ;; qr <- rd rec r1 ;; p <- face d t ql qr ;; Ok (Some p) else Ok None else Ok None.

Definition lside (p : option ((T -> T) * (T -> T))) : list (T -> T) := match p with Some (el, _) => [el] | None => [] end.
Definition rside (p : option ((T -> T) * (T -> T))) : list (T -> T) := match p with Some (_, er) => [er] | None => [] end.

Lemma c1_inner_ok rec mask nx nt t C :
  (forall i, i < nx -> cell_at rec mask (i + 1) (ind1 (i + 1) t nt) t = Ok (C i)) ->
  exists l, centers1_inner T blk center rec mask nx nt t = Ok l /\ (forall p, In p l -> fst p < nx) /\
    forall c, c < nx -> at_cell c l = C c.
Proof.
  intros H. exists (flat_map (fun i => map (fun e => (i, e)) (C i)) (seq 0 nx)). split; [|split].
  - apply for_ops_ok. intros i Hi. specialize (H i ltac:(lia)). unfold cell_at in H.
    destruct (rd mask (i + 1)) as [[|]| | |]; cbn [bind] in *; try discriminate.
    + destruct (rd rec (ind1 (i + 1) t nt)); cbn [bind] in *; try discriminate. rewrite H. reflexivity.
    + injection H as <-. reflexivity.
  - intros p Hp. apply in_flat_map in Hp. destruct Hp as [i [Hi Hp]]. apply in_map_iff in Hp. destruct Hp as [e [<- _]]. apply in_seq in Hi. cbn. lia.
  - intros c Hc. rewrite at_flat. rewrite (flat_one _ nx c Hc).
    + rewrite at_map, Nat.eqb_refl. reflexivity.
    + intros i Hi Ne. rewrite at_map. destruct (Nat.eqb_spec i c); [congruence|reflexivity].
Qed.

Lemma c1_inner_inv rec mask nx nt t l : centers1_inner T blk center rec mask nx nt t = Ok l ->
  forall i, i < nx -> exists C, cell_at rec mask (i + 1) (ind1 (i + 1) t nt) t = Ok C.
Proof.
  intros E i Hi. apply for_ops_inv in E. destruct E as [L [H _]]. specialize (H i ltac:(lia)). unfold cell_at.
  destruct (rd mask (i + 1)) as [[|]| | |]; cbn [bind] in *; try discriminate; [|eauto].
  destruct (rd rec (ind1 (i + 1) t nt)); cbn [bind] in *; try discriminate.
  destruct (center t a); cbn [bind] in *; try discriminate. eauto.
Qed.

Lemma i1_inner_ok rec mask nx nt t P :
  (forall i, i < nx + 1 -> face_at rec mask 0 i (i + 1) (ind1 i t nt) (ind1 (i + 1) t nt) t = Ok (P i)) ->
  exists l, interfs1_inner T blk face rec mask nx nt t = Ok l /\ (forall p, In p l -> fst p < nx) /\
    forall c, c < nx -> at_cell c l = rside (P c) ++ lside (P (S c)).
Proof.
  intros H.
  set (L := fun i => match P i with Some (el, er) => (if Nat.ltb 0 i then [(i - 1, el)] else []) ++ (if Nat.ltb i nx then [(i, er)] else []) | None => [] end).
  exists (flat_map L (seq 0 (nx + 1))). split; [|split].
  - apply for_ops_ok. intros i Hi. specialize (H i ltac:(lia)). unfold face_at in H. unfold L.
    destruct (rd mask i) as [[|]| | |]; cbn [bind] in *; try discriminate.
    + destruct (rd mask (i + 1)) as [[|]| | |]; cbn [bind] in *; try discriminate.
      * destruct (rd rec (ind1 i t nt)); cbn [bind] in *; try discriminate.
        destruct (rd rec (ind1 (i + 1) t nt)); cbn [bind] in *; try discriminate.
        destruct (face 0 t a a0) as [[el er]| | |]; cbn [bind] in *; try discriminate. injection H as <-. reflexivity.
      * injection H as <-. reflexivity.
    + injection H as <-. reflexivity.
  - intros p Hp. apply in_flat_map in Hp. destruct Hp as [i [Hi Hp]]. apply in_seq in Hi. unfold L in Hp.
    destruct (P i) as [[el er]|]; [|destruct Hp]. apply in_app_or in Hp. destruct Hp as [Hp|Hp].
    + destruct (Nat.ltb_spec 0 i); [|destruct Hp]. destruct Hp as [<-|[]]. cbn. lia.
    + destruct (Nat.ltb_spec i nx); [|destruct Hp]. destruct Hp as [<-|[]]. cbn. lia.
  - assert (A : forall c i, c < nx -> at_cell c (L i) = (if Nat.eqb i (S c) then lside (P i) else []) ++ (if Nat.eqb i c then rside (P i) else [])).
    { intros c i Hc. unfold L. destruct (P i) as [[el er]|].
      - rewrite at_app. f_equal.
        + destruct (Nat.ltb_spec 0 i) as [I|I].
          * rewrite at_cons. unfold at_cell; cbn [filter map app]. rewrite app_nil_r. cbn.
            destruct (Nat.eqb_spec (i - 1) c); destruct (Nat.eqb_spec i (S c)); auto; lia.
          * destruct (Nat.eqb_spec i (S c)); auto; lia.
        + destruct (Nat.ltb_spec i nx) as [I|I].
          * rewrite at_cons. unfold at_cell; cbn [filter map app]. rewrite app_nil_r. reflexivity.
          * destruct (Nat.eqb_spec i c); auto; lia.
      - cbn. destruct (i =? S c), (i =? c); reflexivity. }
    intros c Hc. rewrite at_flat. rewrite (flat_two _ (nx + 1) c) by (try lia; intros i Hi N1 N2; rewrite A by exact Hc;
      destruct (Nat.eqb_spec i (S c)); try congruence; destruct (Nat.eqb_spec i c); try congruence; reflexivity).
    rewrite !A by exact Hc. rewrite !Nat.eqb_refl. destruct (Nat.eqb_spec c (S c)); [lia|]. destruct (Nat.eqb_spec (S c) c); [lia|].
    now rewrite app_nil_r.
Qed.

Lemma i1_inner_inv rec mask nx nt t l : interfs1_inner T blk face rec mask nx nt t = Ok l ->
  forall i, i < nx + 1 -> exists P, face_at rec mask 0 i (i + 1) (ind1 i t nt) (ind1 (i + 1) t nt) t = Ok P.
Proof.
  intros E i Hi. apply for_ops_inv in E. destruct E as [L [H _]]. specialize (H i ltac:(lia)). unfold face_at.
  destruct (rd mask i) as [[|]| | |]; cbn [bind] in *; try discriminate; [|eauto].
  destruct (rd mask (i + 1)) as [[|]| | |]; cbn [bind] in *; try discriminate; [|eauto].
  destruct (rd rec (ind1 i t nt)); cbn [bind] in *; try discriminate.
  destruct (rd rec (ind1 (i + 1) t nt)); cbn [bind] in *; try discriminate.
  destruct (face 0 t a a0) as [[el er]| | |]; cbn [bind] in *; try discriminate. eauto.
Qed.

(** collecting over the time nodes *)
Lemma over_t nt n (F : nat -> res (list update)) (Q : nat -> nat -> list (T -> T)) :
  (forall t, t < nt -> exists l, F t = Ok l /\ (forall p, In p l -> fst p < n) /\ forall c, c < n -> at_cell c l = Q t c) ->
  exists l, for_ops nt 0 F = Ok l /\ (forall p, In p l -> fst p < n) /\ forall c, c < n -> at_cell c l = flat_map (fun t => Q t c) (seq 0 nt).
Proof.
  intros H.
  assert (E : exists L, forall t, t < nt -> F t = Ok (L t) /\ (forall p, In p (L t) -> fst p < n) /\ forall c, c < n -> at_cell c (L t) = Q t c).
  { exists (fun t => match F t with Ok l => l | _ => [] end). intros t Ht. destruct (H t Ht) as [l [-> R]]. split; [reflexivity|exact R]. }
  destruct E as [L HL]. exists (flat_map L (seq 0 nt)). split; [|split].
  - apply for_ops_ok. intros t Ht. apply HL. lia.
  - intros p Hp. apply in_flat_map in Hp. destruct Hp as [t [Ht Hp]]. apply in_seq in Ht. apply (HL t ltac:(lia)). exact Hp.
  - intros c Hc. rewrite at_flat. apply flat_ext. intros t Ht. apply in_seq in Ht. apply (HL t ltac:(lia)). exact Hc.
Qed.

Lemma fv1_ok TIME rec mask nx C P : let nt := nt_of TIME in
  (forall t i, t < nt -> i < nx -> cell_at rec mask (i + 1) (ind1 (i + 1) t nt) t = Ok (C t i)) ->
  (forall t i, t < nt -> i < nx + 1 -> face_at rec mask 0 i (i + 1) (ind1 i t nt) (ind1 (i + 1) t nt) t = Ok (P t i)) ->
  exists l, fv_updates T blk N center face TIME rec mask [nx] = Ok l /\ (forall p, In p l -> fst p < nx) /\
    forall c, c < nx -> at_cell c l = flat_map (fun t => C t c) (seq 0 nt) ++ flat_map (fun t => rside (P t c) ++ lside (P t (S c))) (seq 0 nt).
Proof.
  intros nt HC HP. cbn [fv_updates].
  destruct (over_t nt nx (centers1_inner T blk center rec mask nx nt) C) as [l1 [E1 [B1 A1]]].
  { intros t Ht. apply c1_inner_ok. intros i Hi. apply HC; assumption. }
  destruct (over_t nt nx (interfs1_inner T blk face rec mask nx nt) (fun t c => rside (P t c) ++ lside (P t (S c)))) as [l2 [E2 [B2 A2]]].
  { intros t Ht. apply i1_inner_ok. intros i Hi. apply HP; assumption. }
  exists (l1 ++ l2). unfold centers1, interfs1. fold nt.
  change (for_ops nt 0 (fun t => centers1_inner T blk center rec mask nx nt t)) with (for_ops nt 0 (centers1_inner T blk center rec mask nx nt)).
  rewrite E1. cbn [bind]. change (for_ops nt 0 (fun t => interfs1_inner T blk face rec mask nx nt t)) with (for_ops nt 0 (interfs1_inner T blk face rec mask nx nt)).
  rewrite E2. cbn [bind]. split; [reflexivity|]. split.
  - intros p Hp. apply in_app_or in Hp. destruct Hp; auto.
  - intros c Hc. rewrite at_app, A1, A2 by exact Hc. reflexivity.
Qed.

Lemma fv1_inv TIME rec mask nx l : let nt := nt_of TIME in fv_updates T blk N center face TIME rec mask [nx] = Ok l ->
  (forall t i, t < nt -> i < nx -> exists C, cell_at rec mask (i + 1) (ind1 (i + 1) t nt) t = Ok C) /\
  (forall t i, t < nt -> i < nx + 1 -> exists P, face_at rec mask 0 i (i + 1) (ind1 i t nt) (ind1 (i + 1) t nt) t = Ok P).
Proof.
  intros nt E. cbn [fv_updates] in E. apply bind_ok in E. destruct E as [a [Ea E]]. apply bind_ok in E. destruct E as [b [Eb _]].
  unfold centers1, interfs1 in *. fold nt in Ea, Eb. apply for_ops_inv in Ea, Eb. destruct Ea as [La [Ha _]], Eb as [Lb [Hb _]]. split.
  - intros t i Ht Hi. apply (c1_inner_inv _ _ _ _ _ _ (Ha t ltac:(lia)) i Hi).
  - intros t i Ht Hi. apply (i1_inner_inv _ _ _ _ _ _ (Hb t ltac:(lia)) i Hi).
Qed.

(** ** two dimensions *)
Lemma over_cells n m (F : nat -> nat -> res (list update)) (L : nat -> nat -> list update) :
  (forall i j, i < n -> j < m -> F i j = Ok (L i j)) ->
  for_ops n 0 (fun i => for_ops m 0 (fun j => F i j)) = Ok (flat_map (fun i => flat_map (fun j => L i j) (seq 0 m)) (seq 0 n)).
Proof. intros H. apply for_ops_ok. intros i Hi. apply for_ops_ok. intros j Hj. apply H; lia. Qed.

Lemma pack_inj m a b i j : b < m -> j < m -> a * m + b = i * m + j -> a = i /\ b = j.
Proof.
  intros Hb Hj E.
  assert (A : (a * m + b) / m = a) by (rewrite Nat.div_add_l, Nat.div_small by lia; lia).
  assert (B : (i * m + j) / m = i) by (rewrite Nat.div_add_l, Nat.div_small by lia; lia).
  assert (a = i) by congruence. subst i. lia.
Qed.
Lemma pack_bound n m i j : i < n -> j < m -> i * m + j < n * m.
Proof. intros Hi Hj. apply Nat.lt_le_trans with (i * m + m); [lia|]. replace (i * m + m) with (S i * m) by lia. apply Nat.mul_le_mono_r. lia. Qed.

Lemma c2_inner_ok rec mask nx ny nt t C :
  (forall i j, i < nx -> j < ny -> cell_at rec mask ((i + 1) * (ny + 2) + (j + 1)) (ind2 (i + 1) (j + 1) t (ny + 2) nt) t = Ok (C i j)) ->
  exists l, centers2_inner T blk center rec mask nx ny nt t = Ok l /\ (forall p, In p l -> fst p < nx * ny) /\
    forall a b, a < nx -> b < ny -> at_cell (a * ny + b) l = C a b.
Proof.
  intros H. eexists. split; [|split].
  - apply (over_cells nx ny _ (fun i j => map (fun e => (i * ny + j, e)) (C i j))). intros i j Hi Hj. specialize (H i j Hi Hj). unfold cell_at in H.
    destruct (rd mask _) as [[|]| | |]; cbn [bind] in *; try discriminate.
    + destruct (rd rec _); cbn [bind] in *; try discriminate. rewrite H. reflexivity.
    + injection H as <-. reflexivity.
  - intros p Hp. apply in_flat_map in Hp. destruct Hp as [i [Hi Hp]]. apply in_flat_map in Hp. destruct Hp as [j [Hj Hp]].
    apply in_map_iff in Hp. destruct Hp as [e [<- _]]. apply in_seq in Hi, Hj. cbn [fst]. apply pack_bound; lia.
  - intros a b Ha Hb. rewrite at_flat. rewrite (flat_one _ nx a Ha).
    + rewrite at_flat. rewrite (flat_one _ ny b Hb); [now rewrite at_map, Nat.eqb_refl|].
      intros j Hj Ne. rewrite at_map. destruct (Nat.eqb_spec (a * ny + j) (a * ny + b)); [lia|reflexivity].
    + intros i Hi Ne. rewrite at_flat. apply flat_none. intros j Hj. apply in_seq in Hj. rewrite at_map.
      destruct (Nat.eqb_spec (i * ny + j) (a * ny + b)) as [E|]; [|reflexivity]. apply pack_inj in E; lia.
Qed.
Lemma c2_inner_inv rec mask nx ny nt t l : centers2_inner T blk center rec mask nx ny nt t = Ok l ->
  forall i j, i < nx -> j < ny -> exists C, cell_at rec mask ((i + 1) * (ny + 2) + (j + 1)) (ind2 (i + 1) (j + 1) t (ny + 2) nt) t = Ok C.
Proof.
  intros E i j Hi Hj. apply for_ops_inv in E. destruct E as [L [H _]]. specialize (H i ltac:(lia)).
  apply for_ops_inv in H. destruct H as [L' [H _]]. specialize (H j ltac:(lia)). unfold cell_at.
  destruct (rd mask _) as [[|]| | |]; cbn [bind] in *; try discriminate; [|eauto].
  destruct (rd rec _); cbn [bind] in *; try discriminate.
  destruct (center t a); cbn [bind] in *; try discriminate. eauto.
Qed.

Definition xface rec mask ny nt i j t := face_at rec mask 0 (i * (ny + 2) + j) ((i + 1) * (ny + 2) + j) (ind2 i j t (ny + 2) nt) (ind2 (i + 1) j t (ny + 2) nt) t.
Definition yface rec mask ny nt i j t := face_at rec mask 1 (i * (ny + 2) + j) (i * (ny + 2) + (j + 1)) (ind2 i j t (ny + 2) nt) (ind2 i (j + 1) t (ny + 2) nt) t.

Lemma at_if c a (b : bool) (e : T -> T) : at_cell c (if b then [(a, e)] else []) = if (b && Nat.eqb a c)%bool then [e] else [].
Proof. destruct b; [|reflexivity]. rewrite at_cons. cbn. now rewrite app_nil_r. Qed.
Lemma eqb_false_l a b : a <> b -> (a =? b) = false. Proof. apply Nat.eqb_neq. Qed.

Lemma i2_inner_ok rec (mask : buf bool) nx ny nt t X Y :
  (forall a, a < (nx + 2) * (ny + 2) -> exists m, rd mask a = Ok m) ->
  (forall i j, i < nx + 1 -> 0 < j < ny + 1 -> xface rec mask ny nt i j t = Ok (X i j)) ->
  (forall i j, 0 < i < nx + 1 -> j < ny + 1 -> yface rec mask ny nt i j t = Ok (Y i j)) ->
  exists l, interfs2_inner T blk face rec mask nx ny nt t = Ok l /\ (forall p, In p l -> fst p < nx * ny) /\
    forall a b, a < nx -> b < ny -> at_cell (a * ny + b) l = rside (X a (S b)) ++ rside (Y (S a) b) ++ lside (X (S a) (S b)) ++ lside (Y (S a) (S b)).
Proof.
  intros HM HX HY.
  set (LX := fun i j => if Nat.ltb 0 j then match X i j with Some (el, er) =>
     (if Nat.ltb 0 i then [((i - 1) * ny + (j - 1), el)] else []) ++ (if Nat.ltb i nx then [(i * ny + (j - 1), er)] else []) | None => [] end else []).
  set (LY := fun i j => if Nat.ltb 0 i then match Y i j with Some (el, er) =>
     (if Nat.ltb 0 j then [((i - 1) * ny + (j - 1), el)] else []) ++ (if Nat.ltb j ny then [((i - 1) * ny + j, er)] else []) | None => [] end else []).
  eexists. split; [|split].
  - apply (over_cells (nx + 1) (ny + 1) _ (fun i j => LX i j ++ LY i j)). intros i j Hi Hj.
    assert (M0 : i * (ny + 2) + j < (nx + 2) * (ny + 2)) by (apply pack_bound; lia).
    assert (M1 : (i + 1) * (ny + 2) + j < (nx + 2) * (ny + 2)) by (apply pack_bound; lia).
    assert (M2 : i * (ny + 2) + (j + 1) < (nx + 2) * (ny + 2)) by (apply pack_bound; lia).
    destruct (HM _ M0) as [m0 E0], (HM _ M1) as [m1 E1], (HM _ M2) as [m2 E2].
    unfold LX, LY. rewrite E0. cbn [bind].
    assert (PX : 0 < j -> xface rec mask ny nt i j t = Ok (X i j)) by (intros; apply HX; lia).
    assert (PY : 0 < i -> yface rec mask ny nt i j t = Ok (Y i j)) by (intros; apply HY; lia).
    unfold xface, yface, face_at in PX, PY. rewrite E0, E1 in PX. rewrite E0, E2 in PY. cbn [bind] in PX, PY.
    destruct m0.
    2:{ destruct (Nat.ltb_spec 0 j) as [J|J]; [specialize (PX J); injection PX as <-|]; (destruct (Nat.ltb_spec 0 i) as [I|I]; [specialize (PY I); injection PY as <-|]); reflexivity. }
    rewrite E1. cbn [bind].
    match goal with |- (a <- ?A ;; _) = _ => assert (EA : A = Ok (if Nat.ltb 0 j then match X i j with Some (el, er) =>
     (if Nat.ltb 0 i then [((i - 1) * ny + (j - 1), el)] else []) ++ (if Nat.ltb i nx then [(i * ny + (j - 1), er)] else []) | None => [] end else [])) end.
    { destruct (Nat.ltb_spec 0 j) as [J|J].
      - specialize (PX J). destruct m1; cbn [andb].
        + destruct (rd rec (ind2 i j t (ny + 2) nt)); cbn [bind] in *; try discriminate.
          destruct (rd rec (ind2 (i + 1) j t (ny + 2) nt)); cbn [bind] in *; try discriminate.
          destruct (face 0 t a a0) as [[el er]| | |]; cbn [bind] in *; try discriminate. injection PX as <-. reflexivity.
        + injection PX as <-. reflexivity.
      - destruct m1; reflexivity. }
    rewrite EA. cbn [bind]. clear EA. rewrite E2. cbn [bind].
    match goal with |- (b <- ?A ;; _) = _ => assert (EA : A = Ok (if Nat.ltb 0 i then match Y i j with Some (el, er) =>
     (if Nat.ltb 0 j then [((i - 1) * ny + (j - 1), el)] else []) ++ (if Nat.ltb j ny then [((i - 1) * ny + j, er)] else []) | None => [] end else [])) end.
    { destruct (Nat.ltb_spec 0 i) as [J|J].
      - specialize (PY J). destruct m2; cbn [andb].
        + destruct (rd rec (ind2 i j t (ny + 2) nt)); cbn [bind] in *; try discriminate.
          destruct (rd rec (ind2 i (j + 1) t (ny + 2) nt)); cbn [bind] in *; try discriminate.
          destruct (face 1 t a a0) as [[el er]| | |]; cbn [bind] in *; try discriminate. injection PY as <-. reflexivity.
        + injection PY as <-. reflexivity.
      - destruct m2; reflexivity. }
    rewrite EA. reflexivity.
  - intros p Hp. apply in_flat_map in Hp. destruct Hp as [i [Hi Hp]]. apply in_flat_map in Hp. destruct Hp as [j [Hj Hp]].
    apply in_seq in Hi, Hj. unfold LX, LY in Hp. apply in_app_or in Hp. destruct Hp as [Hp|Hp].
    + destruct (Nat.ltb_spec 0 j); [|destruct Hp]. destruct (X i j) as [[el er]|]; [|destruct Hp]. apply in_app_or in Hp. destruct Hp as [Hp|Hp].
      * destruct (Nat.ltb_spec 0 i); [|destruct Hp]. destruct Hp as [<-|[]]. cbn [fst]. apply pack_bound; lia.
      * destruct (Nat.ltb_spec i nx); [|destruct Hp]. destruct Hp as [<-|[]]. cbn [fst]. apply pack_bound; lia.
    + destruct (Nat.ltb_spec 0 i); [|destruct Hp]. destruct (Y i j) as [[el er]|]; [|destruct Hp]. apply in_app_or in Hp. destruct Hp as [Hp|Hp].
      * destruct (Nat.ltb_spec 0 j); [|destruct Hp]. destruct Hp as [<-|[]]. cbn [fst]. apply pack_bound; lia.
      * destruct (Nat.ltb_spec j ny); [|destruct Hp]. destruct Hp as [<-|[]]. cbn [fst]. apply pack_bound; lia.
  - intros a b Ha Hb.
    assert (AX : forall i j, i < nx + 1 -> j < ny + 1 -> at_cell (a * ny + b) (LX i j) =
       if (Nat.eqb j (S b)) then (if Nat.eqb i (S a) then lside (X i j) else if Nat.eqb i a then rside (X i j) else []) else []).
    { intros i j Hi Hj. unfold LX. destruct (Nat.ltb_spec 0 j) as [J|J]; [|now rewrite eqb_false_l by lia].
      assert (E : forall i', ((i' * ny + (j - 1)) =? (a * ny + b)) = ((i' =? a) && (j =? S b))%bool).
      { intros i'. destruct (Nat.eqb_spec (i' * ny + (j - 1)) (a * ny + b)) as [Q|Q].
        - apply pack_inj in Q; try lia. destruct Q as [-> Q]. rewrite Nat.eqb_refl. destruct (Nat.eqb_spec j (S b)); auto; lia.
        - destruct (Nat.eqb_spec i' a) as [->|]; [|reflexivity]. destruct (Nat.eqb_spec j (S b)) as [->|]; auto. exfalso. apply Q. cbn. lia. }
      destruct (X i j) as [[el er]|]; [|destruct (j =? S b), (i =? S a), (i =? a); reflexivity].
      rewrite at_app, !at_if, !E. cbn [lside rside].
      destruct (Nat.eqb_spec j (S b)) as [->|]; [|rewrite !Bool.andb_false_r; reflexivity]. rewrite !Bool.andb_true_r.
      destruct (Nat.eqb_spec i (S a)) as [->|].
      - cbn [Nat.ltb Nat.leb]. replace (S a - 1) with a by lia. rewrite Nat.eqb_refl. rewrite (eqb_false_l (S a) a) by lia.
        rewrite Bool.andb_false_r. reflexivity.
      - rewrite (proj2 (Bool.andb_false_iff (0 <? i) (i - 1 =? a))).
        + destruct (Nat.eqb_spec i a) as [->|]; [|now rewrite Bool.andb_false_r]. rewrite (proj2 (Nat.ltb_lt a nx)) by lia. reflexivity.
        + destruct (Nat.ltb_spec 0 i); [right; apply Nat.eqb_neq; lia|now left]. }
    assert (AY : forall i j, i < nx + 1 -> j < ny + 1 -> at_cell (a * ny + b) (LY i j) =
       if (Nat.eqb i (S a)) then (if Nat.eqb j (S b) then lside (Y i j) else if Nat.eqb j b then rside (Y i j) else []) else []).
    { intros i j Hi Hj. unfold LY. destruct (Nat.ltb_spec 0 i) as [J|J]; [|now rewrite eqb_false_l by lia].
      assert (E : forall j', j' < ny -> (((i - 1) * ny + j') =? (a * ny + b)) = ((i =? S a) && (j' =? b))%bool).
      { intros j' Hj'. destruct (Nat.eqb_spec ((i - 1) * ny + j') (a * ny + b)) as [Q|Q].
        - apply pack_inj in Q; try lia. destruct Q as [Q ->]. rewrite Nat.eqb_refl. destruct (Nat.eqb_spec i (S a)); auto; lia.
        - destruct (Nat.eqb_spec j' b) as [->|]; [|now rewrite Bool.andb_false_r]. destruct (Nat.eqb_spec i (S a)) as [->|]; auto. exfalso. apply Q. cbn. rewrite Nat.sub_0_r. lia. }
      destruct (Y i j) as [[el er]|]; [|destruct (i =? S a), (j =? S b), (j =? b); reflexivity].
      rewrite at_app, !at_if. cbn [lside rside].
      assert (E1 : ((0 <? j) && ((i - 1) * ny + (j - 1) =? a * ny + b))%bool = ((i =? S a) && (j =? S b))%bool).
      { destruct (Nat.ltb_spec 0 j); cbn [andb].
        - rewrite E by lia. f_equal. destruct (Nat.eqb_spec (j - 1) b), (Nat.eqb_spec j (S b)); auto; lia.
        - rewrite (eqb_false_l j (S b)) by lia. now rewrite Bool.andb_false_r. }
      assert (E2 : ((j <? ny) && ((i - 1) * ny + j =? a * ny + b))%bool = ((i =? S a) && (j =? b))%bool).
      { destruct (Nat.ltb_spec j ny); cbn [andb].
        - now rewrite E by lia.
        - rewrite (eqb_false_l j b) by lia. now rewrite Bool.andb_false_r. }
      rewrite E1, E2. destruct (i =? S a); cbn [andb]; [|reflexivity].
      destruct (Nat.eqb_spec j (S b)) as [->|]; [|reflexivity]. rewrite (eqb_false_l (S b) b) by lia. reflexivity. }
    rewrite at_flat. rewrite (flat_two _ (nx + 1) a).
    + rewrite !at_flat. rewrite (flat_one _ (ny + 1) (S b)) by (try lia; intros j Hj Ne; rewrite at_app, AX, AY by lia;
        rewrite (eqb_false_l j (S b)) by lia; rewrite (eqb_false_l a (S a)) by lia; reflexivity).
      rewrite at_app, AX, AY by lia. rewrite !Nat.eqb_refl. rewrite (eqb_false_l a (S a)) by lia. rewrite app_nil_r. f_equal.
      rewrite (flat_two _ (ny + 1) b) by (try lia; intros j Hj N1 N2; rewrite at_app, AX, AY by lia;
        rewrite Nat.eqb_refl, (eqb_false_l j (S b)), (eqb_false_l j b) by lia; reflexivity).
      rewrite !at_app, !AX, !AY by lia. rewrite !Nat.eqb_refl. rewrite (eqb_false_l b (S b)) by lia. cbn [app]. now rewrite app_assoc.
    + lia.
    + intros i Hi N1 N2. rewrite at_flat. apply flat_none. intros j Hj. apply in_seq in Hj. rewrite at_app, AX, AY by lia.
      rewrite (eqb_false_l i (S a)), (eqb_false_l i a) by lia. destruct (j =? S b); reflexivity.
Qed.

Lemma i2_inner_inv rec mask nx ny nt t l : interfs2_inner T blk face rec mask nx ny nt t = Ok l ->
  (forall i j, i < nx + 1 -> 0 < j < ny + 1 -> exists P, xface rec mask ny nt i j t = Ok P) /\
  (forall i j, 0 < i < nx + 1 -> j < ny + 1 -> exists P, yface rec mask ny nt i j t = Ok P).
Proof.
  intros E.
  assert (H : forall i j, i < nx + 1 -> j < ny + 1 -> exists L, (m0 <- rd mask (i * (ny + 2) + j) ;;
    if (m0 : bool) then
      mx <- rd mask ((i + 1) * (ny + 2) + j) ;;
      a <- (if (mx && Nat.ltb 0 j)%bool then
              q0 <- rd rec (ind2 i j t (ny + 2) nt) ;; qx <- rd rec (ind2 (i + 1) j t (ny + 2) nt) ;;
              ' (el, er) <- face 0 t q0 qx ;;
              Ok ((if Nat.ltb 0 i then [((i - 1) * ny + (j - 1), el)] else []) ++ (if Nat.ltb i nx then [(i * ny + (j - 1), er)] else []))
            else Ok []) ;;
      my <- rd mask (i * (ny + 2) + (j + 1)) ;;
      b <- (if (my && Nat.ltb 0 i)%bool then
              q0 <- rd rec (ind2 i j t (ny + 2) nt) ;; qy <- rd rec (ind2 i (j + 1) t (ny + 2) nt) ;;
              ' (el, er) <- face 1 t q0 qy ;;
              Ok ((if Nat.ltb 0 j then [((i - 1) * ny + (j - 1), el)] else []) ++ (if Nat.ltb j ny then [((i - 1) * ny + j, er)] else []))
            else Ok []) ;;
      Ok (a ++ b)
    else Ok []) = Ok L).
  { intros i j Hi Hj. apply for_ops_inv in E. destruct E as [L [H _]]. specialize (H i ltac:(lia)).
    apply for_ops_inv in H. destruct H as [L' [H _]]. specialize (H j ltac:(lia)). exists (L' j). exact H. }
  split; intros i j Hi Hj; destruct (H i j ltac:(lia) ltac:(lia)) as [L E']; clear H E; unfold xface, yface, face_at.
  - destruct (rd mask (i * (ny + 2) + j)) as [[|]| | |]; cbn [bind] in *; try discriminate; [|eauto].
    destruct (rd mask ((i + 1) * (ny + 2) + j)) as [[|]| | |]; cbn [bind andb] in *; try discriminate; [|eauto].
    destruct (Nat.ltb_spec 0 j); [|lia].
    destruct (rd rec (ind2 i j t (ny + 2) nt)); cbn [bind] in *; try discriminate.
    destruct (rd rec (ind2 (i + 1) j t (ny + 2) nt)); cbn [bind] in *; try discriminate.
    destruct (face 0 t a a0) as [[el er]| | |]; cbn [bind] in *; try discriminate. eauto.
  - destruct (rd mask (i * (ny + 2) + j)) as [[|]| | |]; cbn [bind] in *; try discriminate; [|eauto].
    destruct (rd mask ((i + 1) * (ny + 2) + j)) as [m1| | |]; cbn [bind andb] in *; try discriminate.
    apply bind_ok in E'. destruct E' as [a [_ E']].
    destruct (rd mask (i * (ny + 2) + (j + 1))) as [[|]| | |]; cbn [bind andb] in *; try discriminate; [|eauto].
    destruct (Nat.ltb_spec 0 i); [|lia].
    destruct (rd rec (ind2 i j t (ny + 2) nt)); cbn [bind] in *; try discriminate.
    destruct (rd rec (ind2 i (j + 1) t (ny + 2) nt)); cbn [bind] in *; try discriminate.
    destruct (face 1 t a0 a1) as [[el er]| | |]; cbn [bind] in *; try discriminate. eauto.
Qed.

Lemma over_t2 nt n m (F : nat -> res (list update)) (Q : nat -> nat -> nat -> list (T -> T)) :
  (forall t, t < nt -> exists l, F t = Ok l /\ (forall p, In p l -> fst p < n * m) /\ forall a b, a < n -> b < m -> at_cell (a * m + b) l = Q t a b) ->
  exists l, for_ops nt 0 F = Ok l /\ (forall p, In p l -> fst p < n * m) /\
    forall a b, a < n -> b < m -> at_cell (a * m + b) l = flat_map (fun t => Q t a b) (seq 0 nt).
Proof.
  intros H.
  destruct (over_t nt (n * m) F (fun t c => Q t (c / m) (c mod m))) as [l [E [B A]]].
  { intros t Ht. destruct (H t Ht) as [l [E [B A]]]. exists l. split; [exact E|]. split; [exact B|]. intros c Hc.
    destruct (Nat.eq_dec m 0) as [->|M]; [lia|].
    rewrite (Nat.div_mod c m M) at 1. rewrite (Nat.mul_comm m). apply A; [apply Nat.div_lt_upper_bound; lia|apply Nat.mod_upper_bound; lia]. }
  exists l. split; [exact E|]. split; [exact B|]. intros a b Ha Hb. rewrite A by (apply pack_bound; lia).
  replace ((a * m + b) / m) with a by (rewrite Nat.div_add_l, Nat.div_small by lia; lia).
  replace ((a * m + b) mod m) with b by (rewrite Nat.add_comm, Nat.mod_add, Nat.mod_small by lia; lia). reflexivity.
Qed.

Lemma fv2_ok TIME rec (mask : buf bool) nx ny C X Y : let nt := nt_of TIME in
  (forall a, a < (nx + 2) * (ny + 2) -> exists m, rd mask a = Ok m) ->
  (forall t i j, t < nt -> i < nx -> j < ny -> cell_at rec mask ((i + 1) * (ny + 2) + (j + 1)) (ind2 (i + 1) (j + 1) t (ny + 2) nt) t = Ok (C t i j)) ->
  (forall t i j, t < nt -> i < nx + 1 -> 0 < j < ny + 1 -> xface rec mask ny nt i j t = Ok (X t i j)) ->
  (forall t i j, t < nt -> 0 < i < nx + 1 -> j < ny + 1 -> yface rec mask ny nt i j t = Ok (Y t i j)) ->
  exists l, fv_updates T blk N center face TIME rec mask [nx; ny] = Ok l /\ (forall p, In p l -> fst p < nx * ny) /\
    forall a b, a < nx -> b < ny -> at_cell (a * ny + b) l = flat_map (fun t => C t a b) (seq 0 nt) ++
      flat_map (fun t => rside (X t a (S b)) ++ rside (Y t (S a) b) ++ lside (X t (S a) (S b)) ++ lside (Y t (S a) (S b))) (seq 0 nt).
Proof.
  intros nt HM HC HX HY. cbn [fv_updates].
  destruct (over_t2 nt nx ny (centers2_inner T blk center rec mask nx ny nt) C) as [l1 [E1 [B1 A1]]].
  { intros t Ht. apply c2_inner_ok. intros i j Hi Hj. apply HC; assumption. }
  destruct (over_t2 nt nx ny (interfs2_inner T blk face rec mask nx ny nt)
    (fun t a b => rside (X t a (S b)) ++ rside (Y t (S a) b) ++ lside (X t (S a) (S b)) ++ lside (Y t (S a) (S b)))) as [l2 [E2 [B2 A2]]].
  { intros t Ht. apply i2_inner_ok; [exact HM| |]; intros i j Hi Hj; [apply HX|apply HY]; assumption. }
  exists (l1 ++ l2). unfold centers2, interfs2. fold nt.
  change (for_ops nt 0 (fun t => centers2_inner T blk center rec mask nx ny nt t)) with (for_ops nt 0 (centers2_inner T blk center rec mask nx ny nt)).
  rewrite E1. cbn [bind]. change (for_ops nt 0 (fun t => interfs2_inner T blk face rec mask nx ny nt t)) with (for_ops nt 0 (interfs2_inner T blk face rec mask nx ny nt)).
  rewrite E2. cbn [bind]. split; [reflexivity|]. split.
  - intros p Hp. apply in_app_or in Hp. destruct Hp; auto.
  - intros a b Ha Hb. rewrite at_app, A1, A2 by assumption. reflexivity.
Qed.

Lemma fv2_inv TIME rec mask nx ny l : let nt := nt_of TIME in fv_updates T blk N center face TIME rec mask [nx; ny] = Ok l ->
  (forall t i j, t < nt -> i < nx -> j < ny -> exists C, cell_at rec mask ((i + 1) * (ny + 2) + (j + 1)) (ind2 (i + 1) (j + 1) t (ny + 2) nt) t = Ok C) /\
  (forall t i j, t < nt -> i < nx + 1 -> 0 < j < ny + 1 -> exists P, xface rec mask ny nt i j t = Ok P) /\
  (forall t i j, t < nt -> 0 < i < nx + 1 -> j < ny + 1 -> exists P, yface rec mask ny nt i j t = Ok P).
Proof.
  intros nt E. cbn [fv_updates] in E. apply bind_ok in E. destruct E as [a [Ea E]]. apply bind_ok in E. destruct E as [b [Eb _]].
  unfold centers2, interfs2 in *. fold nt in Ea, Eb. apply for_ops_inv in Ea, Eb. destruct Ea as [La [Ha _]], Eb as [Lb [Hb _]]. split; [|split].
  - intros t i j Ht Hi Hj. apply (c2_inner_inv _ _ _ _ _ _ _ (Ha t ltac:(lia)) i j Hi Hj).
  - intros t i j Ht Hi Hj. apply (i2_inner_inv _ _ _ _ _ _ _ (Hb t ltac:(lia))); assumption.
  - intros t i j Ht Hi Hj. apply (i2_inner_inv _ _ _ _ _ _ _ (Hb t ltac:(lia))); assumption.
Qed.
End Code.
End P.
