(** The steppers on arbitrary data: every access is in range and initialised, whatever the mask, with NaNs or without. *)
From Coq Require Import Reals Lia.
From Verif Require Import Base Options FvModel FvProof WenoModel WenoProof GridModel StepperModel StepperProof StepperProof2 ThreadProof StepperProps.
Import List ListNotations.
Open Scope nat_scope.

Section P.
Variable N : nat.
Variables (SIG : nat -> nat -> R) (LAMS LAMC EPS : R) (inv : stencil -> (nat -> R) -> nat -> R).
Variable prim : option ((num -> num) * (num -> num)).
Variable nc : bool.
Variable blk : Type.
Variable center : nat -> bool -> nat -> blk -> res (list (num -> num)).
Variable face : nat -> bool -> nat -> nat -> blk -> blk -> res ((num -> num) * (num -> num)).
Variable Phi : nat -> list num -> res (option (nat -> blk)).
Variable view : list num -> blk.
Variable mid : nat -> list num -> res blk.
Variable ode : num -> num.
Hypothesis N1 : 1 <= N.
Notation ext := extended_dimensions.

Lemma weno_any ub nx rest : dims rest -> blen ub = ext (nx :: rest) N -> initialised ub ->
  exists wh, weno_launcher N SIG LAMS LAMC EPS inv prim nc (balloc (ext (nx :: rest) 1 * N ^ length (nx :: rest))) ub (nx :: rest) = Ok wh /\
    blen wh = ext (nx :: rest) 1 * N ^ length (nx :: rest) /\ initialised wh.
Proof.
  intros Hd L [u U].
  assert (K : forall wh : buf num, (forall a, a < blen wh -> bdat wh a <> None) -> initialised wh).
  { intros wh H. exists (fun a => match bdat wh a with Some x => x | None => None end). intros a Ha. specialize (H a Ha). destruct (bdat wh a); congruence. }
  destruct Hd as [->|[ny ->]]; cbn [ext map fold_right length Nat.pow] in *; rewrite ?Nat.mul_1_r in *.
  - destruct (weno1d N SIG LAMS LAMC EPS inv N1 prim nc ub u nx L U) as [wh [E [Lw V]]]. exists wh. split; [exact E|]. split; [exact Lw|]. apply K.
    intros a Ha. rewrite Lw in Ha. pose proof (Nat.div_mod a N ltac:(lia)) as Da. pose proof (Nat.mod_upper_bound a N ltac:(lia)) as Ma.
    assert (Hq : a / N < nx + 2) by (apply Nat.div_lt_upper_bound; lia). rewrite (Nat.mul_comm N) in Da. rewrite Da, V by assumption. discriminate.
  - replace ((nx + 2) * (ny + 2) * (N * N)) with ((nx + 2) * (ny + 2) * N * N) by ring.
    destruct (weno2d N SIG LAMS LAMC EPS inv N1 prim nc ub u nx ny L U) as [wh [E [Lw V]]]. exists wh. split; [exact E|]. split; [exact Lw|]. apply K.
    intros a Ha. rewrite Lw in Ha. edestruct cell4 as [i [j [ii [jj [Hi [Hj [Hii [Hjj ->]]]]]]]]; [exact N1|exact Ha|]. rewrite V by assumption. discriminate.
Qed.

Lemma gather_any (wh : buf num) : initialised wh -> forall n i, i + n <= blen wh -> exists l, gather (rd wh) n i = Ok l /\ length l = n.
Proof.
  intros [x X]. induction n as [|n IH]; intros i L; cbn [gather]; [exists []; auto|].
  rewrite (rd_ok wh i (x i)) by (try apply X; lia). cbn [bind]. destruct (IH (S i) ltac:(lia)) as [l [-> Ll]]. cbn [bind]. eexists. split; [reflexivity|]. cbn [length]. now rewrite Ll.
Qed.

(** the finite volume update on blocks that are there for the masked cells *)
Lemma fv_any (ctr : nat -> blk -> res (list (num -> num))) (fc : nat -> nat -> blk -> blk -> res ((num -> num) * (num -> num))) TIME (rec : buf blk) (mask : buf bool) nx rest :
  (forall t b, exists l, ctr t b = Ok l) -> (forall d t b b', d < 2 -> exists p, fc d t b b' = Ok p) -> dims rest -> blen mask = ext (nx :: rest) 1 -> initialised mask ->
  (forall i t, i < ext (nx :: rest) 1 -> t < nt_of N TIME -> rd mask i = Ok true -> exists b, rd rec (i * nt_of N TIME + t) = Ok b) ->
  exists l, fv_updates num blk N ctr fc TIME rec mask (nx :: rest) = Ok l /\ forall p, In p l -> fst p < ext (nx :: rest) 0.
Proof.
  intros HC HF Hd Lm [m M] HR. set (nt := nt_of N TIME) in *.
  assert (RM : forall a, a < ext (nx :: rest) 1 -> rd mask a = Ok (m a)) by (intros a Ha; apply rd_ok; [lia|apply M; lia]).
  assert (CA : forall a r t, a < ext (nx :: rest) 1 -> t < nt -> r = a * nt + t -> exists l, cell_at ctr rec mask a r t = Ok l).
  { intros a r t Ha Ht ->. unfold cell_at. rewrite (RM a Ha). cbn [bind]. destruct (m a) eqn:Em; [|eauto].
    destruct (HR a t Ha Ht ltac:(rewrite (RM a Ha), Em; reflexivity)) as [b ->]. cbn [bind]. apply HC. }
  assert (FA : forall d a0 a1 r0 r1 t, d < 2 -> a0 < ext (nx :: rest) 1 -> a1 < ext (nx :: rest) 1 -> t < nt -> r0 = a0 * nt + t -> r1 = a1 * nt + t ->
     exists p, face_at fc rec mask d a0 a1 r0 r1 t = Ok p).
  { intros d a0 a1 r0 r1 t Hd' H0 H1 Ht -> ->. unfold face_at. rewrite (RM a0 H0). cbn [bind]. destruct (m a0) eqn:E0; [|eauto]. rewrite (RM a1 H1). cbn [bind]. destruct (m a1) eqn:E1; [|eauto].
    destruct (HR a0 t H0 Ht ltac:(rewrite (RM a0 H0), E0; reflexivity)) as [b0 ->]. destruct (HR a1 t H1 Ht ltac:(rewrite (RM a1 H1), E1; reflexivity)) as [b1 ->]. cbn [bind].
    destruct (HF d t b0 b1 Hd') as [p ->]. cbn [bind]. eauto. }
  destruct Hd as [->|[ny ->]].
  - cbn [ext map fold_right] in *. rewrite ?Nat.mul_1_r, ?Nat.mul_0_r, ?Nat.add_0_r in *.
    destruct (fv1_ok N ctr fc TIME rec mask nx
      (fun t i => match cell_at ctr rec mask (i + 1) (ind1 (i + 1) t nt) t with Ok c => c | _ => [] end)
      (fun t i => match face_at fc rec mask 0 i (i + 1) (ind1 i t nt) (ind1 (i + 1) t nt) t with Ok c => c | _ => None end)) as [l [E [B _]]].
    + fold nt. intros t i Ht Hi. destruct (CA (i + 1) (ind1 (i + 1) t nt) t ltac:(lia) Ht eq_refl) as [c ->]. reflexivity.
    + fold nt. intros t i Ht Hi. destruct (FA 0 i (i + 1) (ind1 i t nt) (ind1 (i + 1) t nt) t ltac:(lia) ltac:(lia) ltac:(lia) Ht eq_refl eq_refl) as [c ->]. reflexivity.
    + exists l. split; [exact E|exact B].
  - cbn [ext map fold_right] in *. rewrite ?Nat.mul_1_r, ?Nat.mul_0_r, ?Nat.add_0_r in *.
    destruct (fv2_ok N ctr fc TIME rec mask nx ny
      (fun t i j => match cell_at ctr rec mask ((i + 1) * (ny + 2) + (j + 1)) (ind2 (i + 1) (j + 1) t (ny + 2) nt) t with Ok c => c | _ => [] end)
      (fun t i j => match xface fc rec mask ny nt i j t with Ok c => c | _ => None end)
      (fun t i j => match yface fc rec mask ny nt i j t with Ok c => c | _ => None end)) as [l [E [B _]]].
    + intros a Ha. exists (m a). apply RM. lia.
    + fold nt. intros t i j Ht Hi Hj. destruct (CA ((i + 1) * (ny + 2) + (j + 1)) (ind2 (i + 1) (j + 1) t (ny + 2) nt) t) as [c ->]; [apply pack_lt; lia|exact Ht|reflexivity|reflexivity].
    + fold nt. intros t i j Ht Hi Hj. unfold xface. edestruct (FA 0) as [c Ec]; [lia| | |exact Ht|reflexivity|reflexivity|]; [| |unfold ind2; rewrite Ec; reflexivity]; apply pack_lt; lia.
    + fold nt. intros t i j Ht Hi Hj. unfold yface. edestruct (FA 1) as [c Ec]; [lia| | |exact Ht|reflexivity|reflexivity|]; [| |unfold ind2; rewrite Ec; reflexivity]; apply pack_lt; lia.
    + exists l. split; [exact E|exact B].
Qed.

Definition returns_center : Prop := forall ndim s t b, ndim = 1 \/ ndim = 2 -> exists l, center ndim s t b = Ok l.
Definition returns_face : Prop := forall ndim s d t b b', ndim = 1 \/ ndim = 2 -> d < 2 -> exists p, face ndim s d t b b' = Ok p.
Definition returns_predictor (ndim : nat) : Prop := forall l, length l = N ^ ndim -> exists f, Phi ndim l = Ok (Some f).
Definition returns_mid (ndim : nat) : Prop := forall l, length l = N ^ ndim -> exists b, mid ndim l = Ok b.
Hypothesis HC : returns_center.
Hypothesis HF : returns_face.

Lemma dims_len rest nx : dims rest -> length (nx :: rest : list nat) = 1 \/ length (nx :: rest : list nat) = 2.
Proof. intros [->|[ny ->]]; cbn; auto. Qed.

Lemma ader_any ub mask nx rest : returns_predictor (length (nx :: rest)) -> dims rest -> blen ub = ext (nx :: rest) N -> initialised ub -> blen mask = ext (nx :: rest) 1 -> initialised mask ->
  exists l, ader_updates N SIG LAMS LAMC EPS inv prim nc blk center face Phi ub mask (nx :: rest) = Ok l /\ forall p, In p l -> fst p < ext (nx :: rest) 0.
Proof.
  intros HP Hd L I Lm Im. pose proof (dims_len rest nx Hd) as HL. unfold ader_updates. cbv zeta. set (nd := length (nx :: rest)) in *.
  destruct (weno_any ub nx rest Hd L I) as [wh [Ew [Lw Iw]]]. fold nd in Ew, Lw. rewrite Ew. cbn [bind]. clear Ew. set (n := ext (nx :: rest) 1) in *. destruct Im as [m M].
  assert (G : forall i, i < n -> exists r, pcell blk Phi nd (N ^ nd) wh mask i = Ok r /\ (m i = true -> r <> None)).
  { intros i Hi. unfold pcell. rewrite (rd_ok mask i (m i)) by (try apply M; lia). cbn [bind]. destruct (m i); [|exists None; split; [reflexivity|discriminate]].
    destruct (gather_any wh Iw (N ^ nd) (i * N ^ nd)) as [l [-> Ll]]; [rewrite Lw; replace (i * N ^ nd + N ^ nd) with (S i * N ^ nd) by (cbn; lia); apply Nat.mul_le_mono_r; lia|].
    cbn [bind]. destruct (HP l Ll) as [f Ef]. rewrite Ef. exists (Some f). split; [reflexivity|discriminate]. }
  destruct (predictor_ok N N1 blk Phi nd (N ^ nd) (balloc (n * N)) wh mask (fun i => match pcell blk Phi nd (N ^ nd) wh mask i with Ok r => r | _ => None end)) as [qh [-> [Lq Vq]]].
  { cbn [balloc blen]. lia. }
  { intros i Hi. destruct (G i ltac:(lia)) as [r [-> _]]. reflexivity. }
  cbn [bind]. cbn [balloc blen] in Lq. apply fv_any; try assumption; [intros; apply HC; assumption|intros; apply HF; assumption|exists m; exact M|].
  cbn [nt_of]. fold n. intros i t Hi Ht Ei. rewrite (rd_ok mask i (m i)) in Ei by (try apply M; lia). injection Ei as Ei.
  destruct (G i Hi) as [r [Er Hr]]. specialize (Vq i t ltac:(lia) Ht). rewrite Er in Vq. destruct r as [f|]; [|destruct (Hr Ei eq_refl)].
  exists (f t). apply rd_ok; [rewrite Lq; apply pack_lt; assumption|exact Vq].
Qed.

Lemma split_any HALF ulen ub mask nx rest : returns_mid (length (nx :: rest)) -> dims rest -> ulen = ext (nx :: rest) 0 -> blen ub = ext (nx :: rest) N -> initialised ub -> blen mask = ext (nx :: rest) 1 -> initialised mask ->
  exists l, split_updates N SIG LAMS LAMC EPS inv prim nc blk center face view mid ode HALF ulen ub mask (nx :: rest) = Ok l /\ forall p, In p l -> fst p < ext (nx :: rest) 0.
Proof.
  intros HM Hd Lu L I Lm Im. pose proof (dims_len rest nx Hd) as HL. unfold split_updates. cbv zeta. set (nd := length (nx :: rest)) in *.
  assert (Ib : initialised (bmap ode ub)).
  { destruct I as [x X]. exists (fun a => ode (x a)). intros a Ha. cbn [bmap blen bdat] in *. rewrite X by exact Ha. reflexivity. }
  destruct (weno_any (bmap ode ub) nx rest Hd L Ib) as [wh [Ew [Lw Iw]]]. fold nd in Ew, Lw. rewrite Ew. cbn [bind]. clear Ew. set (n := ext (nx :: rest) 1) in *. destruct Im as [m M].
  assert (G : forall i, i < n -> exists r, mcell blk view mid HALF nd (N ^ nd) wh mask i = Ok r).
  { intros i Hi. unfold mcell. rewrite (rd_ok mask i (m i)) by (try apply M; lia). cbn [bind].
    destruct (gather_any wh Iw (N ^ nd) (i * N ^ nd)) as [l [-> Ll]]; [rewrite Lw; replace (i * N ^ nd + N ^ nd) with (S i * N ^ nd) by (cbn; lia); apply Nat.mul_le_mono_r; lia|].
    cbn [bind]. destruct (m i && HALF)%bool; [apply HM, Ll|eauto]. }
  assert (D : exists d : blk, True \/ n = 0).
  { destruct n as [|k]; [|destruct (G 0 ltac:(lia)) as [r _]; exists r; auto]. exists (view []). auto. }
  destruct D as [d _].
  destruct (midstepper_ok N N1 blk view mid HALF nd (N ^ nd) (balloc n) wh mask (fun i => match mcell blk view mid HALF nd (N ^ nd) wh mask i with Ok r => r | _ => d end)) as [rec [-> [Lq Vq]]].
  { cbn [balloc blen]. lia. }
  { intros i Hi. destruct (G i ltac:(lia)) as [r ->]. reflexivity. }
  cbn [bind]. cbn [balloc blen] in Lq.
  destruct (fv_any (center nd false) (face nd false) false rec mask nx rest) as [l [-> B]]; try assumption; [intros; apply HC; assumption|intros; apply HF; assumption|exists m; exact M| |].
  - cbn [nt_of]. fold n. intros i t Hi Ht Ei. replace (i * 1 + t) with i by lia. eexists. apply rd_ok; [lia|apply Vq; lia].
  - cbn [bind]. eexists. split; [reflexivity|]. intros p Hp.
    apply in_app_or in Hp. destruct Hp as [Hp|Hp]; [|apply in_app_or in Hp; destruct Hp as [Hp|Hp]; [apply B, Hp|]];
      apply in_map_iff in Hp; destruct Hp as [a [<- Ha]]; apply in_seq in Ha; cbn [fst]; lia.
Qed.
End P.

(** a serial stepper that returns on every slab *)
Section Threads.
Variable N : nat.
Variable ser : nat -> buf num -> buf bool -> list nat -> res (list (update num)).
Notation ext := extended_dimensions.
Definition safe_on (rest : list nat) : Prop := forall ub mask nx, blen ub = ext (nx :: rest) N -> initialised ub -> blen mask = ext (nx :: rest) 1 -> initialised mask ->
  exists l, ser (ext (nx :: rest) 0) ub mask (nx :: rest) = Ok l /\ forall p, In p l -> fst p < ext (nx :: rest) 0.

Lemma window_init {A} (b b' : buf A) o : window b b' o -> initialised b -> initialised b'.
Proof. intros [W V] [x X]. exists (fun a => x (o + a)). intros a Ha. rewrite V by exact Ha. apply X. lia. Qed.

Lemma threads_safe ub mask nx rest n : safe_on rest -> 0 < nx -> 0 < n -> blen ub = ext (nx :: rest) N -> initialised ub -> blen mask = ext (nx :: rest) 1 -> initialised mask ->
  exists ops, gather_ops (thread_updates N ser (ext (nx :: rest) 0) ub mask (nx :: rest) n) n 0 = Ok ops.
Proof.
  intros HS Hx Hn Lb Ib Lm Im. set (ulen := ext (nx :: rest) 0).
  assert (R0 : ulen / nx = ext rest 0) by (unfold ulen; rewrite ext_cons, Nat.mul_0_r, Nat.add_0_r, Nat.mul_comm; apply Nat.div_mul; lia).
  assert (Rb : blen ub / (nx + 2 * N) = ext rest N) by (rewrite Lb, ext_cons, Nat.mul_comm; apply Nat.div_mul; lia).
  assert (Rm : blen mask / (nx + 2) = ext rest 1) by (rewrite Lm, ext_cons, Nat.mul_comm; apply Nat.div_mul; lia).
  assert (T : forall t, t < n -> exists l', thread_updates N ser ulen ub mask (nx :: rest) n t = Ok l').
  { intros t Ht. unfold thread_updates. rewrite (proj2 (Nat.eqb_neq nx 0)) by lia. cbv zeta. rewrite R0, Rb, Rm.
    pose proof (slab_bound nx n (t + 1) Hn ltac:(lia)) as F. pose proof (slab_le nx n t (t + 1) ltac:(lia)) as G.
    set (s := slab_start nx n t) in *. set (f := slab_start nx n (t + 1)) in *.
    rewrite (proj2 (Nat.ltb_ge ulen (f * ext rest 0))).
    2:{ unfold ulen. rewrite ext_cons, Nat.mul_0_r, Nat.add_0_r. apply Nat.mul_le_mono_r, F. }
    destruct (segment_ok ub (s * ext rest N) ((f + 2 * N - s) * ext rest N)) as [ub' [Eb [Lb' Wb]]].
    { rewrite Lb, ext_cons, <- Nat.mul_add_distr_r. apply Nat.mul_le_mono_r. lia. }
    destruct (segment_ok mask (s * ext rest 1) ((f + 2 - s) * ext rest 1)) as [mask' [Em [Lm' Wm]]].
    { rewrite Lm, ext_cons, <- Nat.mul_add_distr_r. apply Nat.mul_le_mono_r. lia. }
    rewrite Eb. cbn [bind]. rewrite Em. cbn [bind].
    assert (E0 : ext (f - s :: rest) 0 = (f - s) * ext rest 0) by (rewrite ext_cons; f_equal; lia).
    destruct (HS ub' mask' (f - s)) as [l [E B]].
    - rewrite Lb', ext_cons. f_equal. lia.
    - exact (window_init _ _ _ Wb Ib).
    - rewrite Lm', ext_cons. f_equal. lia.
    - exact (window_init _ _ _ Wm Im).
    - rewrite E0 in E, B. rewrite E. cbn [bind].
      rewrite (proj2 (forallb_forall (fun p => Nat.ltb (fst p) ((f - s) * ext rest 0)) l)) by (intros p Hp; apply Nat.ltb_lt, B, Hp). eauto. }
  exists (map (fun t => match thread_updates N ser ulen ub mask (nx :: rest) n t with Ok l => l | _ => [] end) (seq 0 n)).
  apply gather_ops_ok. intros i Hi. cbn [Nat.add]. destruct (T i Hi) as [l ->]. reflexivity.
Qed.

(** every schedule of the parallel stepper, of any number of threads: no thread faults, all can be run to the end, and
    they all leave the same initialised array *)
Lemma para_safe u ub mask nx rest n : safe_on rest -> 0 < nx -> 0 < n -> blen u = ext (nx :: rest) 0 -> initialised u ->
  blen ub = ext (nx :: rest) N -> initialised ub -> blen mask = ext (nx :: rest) 1 -> initialised mask ->
  exists u', blen u' = blen u /\ initialised u' /\ forall sched, exists c, para (thread_updates N ser (blen u) ub mask (nx :: rest) n) n sched u = Ok c /\ (finished c -> same u' (snd c)) /\
    exists more c', para (thread_updates N ser (blen u) ub mask (nx :: rest) n) n (sched ++ more) u = Ok c' /\ finished c'.
Proof.
  intros HS Hx Hn Lu [x Hu] Lb Ib Lm Im. destruct (threads_safe ub mask nx rest n HS Hx Hn Lb Ib Lm Im) as [ops Eo]. rewrite <- Lu in Eo.
  destruct (threads_disjoint N ser (blen u) ub mask (nx :: rest) n ops Eo) as [D B]. specialize (B Hn).
  exists (mkbuf (blen u) (fun a => Some (run (at_cell a (concat ops)) (x a)))). split; [reflexivity|]. split; [eexists; cbn [blen bdat]; intros; reflexivity|]. intros sched.
  unfold para. rewrite Eo. cbn [bind].
  destruct (threads_ok num ops u x D B Hu sched) as [c [Ec [L F]]]. exists c. split; [exact Ec|]. split.
  - intros Hf. split; cbn [blen bdat]; [symmetry; exact L|]. intros a Ha. symmetry. apply F; assumption.
  - destruct (threads_finish num ops u x D B Hu sched c Ec) as [more [c' [E' F']]]. eauto.
Qed.
Lemma serial_safe u ub mask nx rest : safe_on rest -> blen u = ext (nx :: rest) 0 -> initialised u ->
  blen ub = ext (nx :: rest) N -> initialised ub -> blen mask = ext (nx :: rest) 1 -> initialised mask ->
  exists u', (l <- ser (blen u) ub mask (nx :: rest) ;; fold_res do_update l u) = Ok u' /\ blen u' = blen u /\ initialised u'.
Proof.
  intros HS Lu [x Hu] Lb Ib Lm Im. destruct (HS ub mask nx Lb Ib Lm Im) as [l [E B]]. rewrite <- Lu in E, B. rewrite E. cbn [bind].
  destruct (updates_run l u x B Hu) as [u2 [E2 [L2 V2]]]. exists u2. split; [exact E2|]. split; [exact L2|]. eexists. intros a Ha. rewrite L2 in Ha. apply V2, Ha.
Qed.
End Threads.
