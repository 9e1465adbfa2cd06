(** Properties C21 - C24: the WENO reconstruction. *)
From Coq Require Import Reals Lra List Lia ZArith.
From Coquelicot Require Import Coquelicot.
From Verif Require Import Base Options Sum PolyModel PolyProof WenoModel WenoSpec WenoProof WenoProof2 WenoProof3 WenoProof4.
Import List ListNotations.
Open Scope R_scope.

(** The globals of globals.cpp as they are meant to be: the basis of distinct nodes, linear solves that solve, and a
    positive semidefinite indicator matrix (theorem [oscillation_gram_partial] below says what [oscillation_indicator]
    has to do with it), LAMS, LAMC, EPS positive. *)
Definition weno_setup (nodes : list R) (bs : list poly) (inv : stencil -> (nat -> R) -> nat -> R) (SIG : nat -> nat -> R) (LAMS LAMC EPS : R) : Prop :=
  distinct nodes /\ basis_polys nodes = Ok bs /\ (1 <= length nodes)%nat /\
  (forall s d i, (i < length nodes)%nat ->
     rsum (length nodes) (fun j => coefficient_matrix (length nodes) (fun j => nth j bs []) s i j * inv s d j) = d i) /\
  0 < LAMS /\ 0 < LAMC /\ 0 < EPS /\
  (forall w, 0 <= rsum (length nodes) (fun i => rsum (length nodes) (fun j => w i * SIG i j * w j))).

Section Unpack.
Variables (nodes : list R) (bs : list poly) (inv : stencil -> (nat -> R) -> nat -> R) (SIG : nat -> nat -> R) (LAMS LAMC EPS : R).
Hypothesis ST : weno_setup nodes bs inv SIG LAMS LAMC EPS.
Let N := length nodes.
Let psi (j : nat) := evaluate (nth j bs []).
Let launcher := weno_launcher N SIG LAMS LAMC EPS inv None.

Local Lemma u1 : distinct nodes. Proof. apply ST. Qed.
Local Lemma u2 : basis_polys nodes = Ok bs. Proof. apply ST. Qed.
Local Lemma u3 : (1 <= N)%nat. Proof. apply ST. Qed.
Local Lemma u4 : solver nodes bs inv. Proof. destruct ST as (_ & _ & _ & H & _). exact H. Qed.
Local Lemma u5 : 0 < LAMS /\ 0 < LAMC. Proof. destruct ST as (_ & _ & _ & _ & A & B & _). auto. Qed.
Local Lemma u6 : forall w, rsum N (fun i => rsum N (fun j => w i * SIG i j * w j)) + EPS <> 0.
Proof. destruct ST as (_ & _ & _ & _ & _ & _ & E & P). intros w. specialize (P w). fold N in P. lra. Qed.

(** C21 in 1-D. Grid of n cells with N ghost cells on each side; cell i of the result (0 <= i < n+2) is cell i+N-1 of ub. *)
Theorem weno_average_1d nc (n : nat) (f : nat -> vec) (wh ub : buf num) :
  blen wh = ((n + 2) * N)%nat -> blen ub = (n + 2 * N)%nat -> (forall a, (a < n + 2 * N)%nat -> bdat ub a = Some (Some (f a))) ->
  exists wh', launcher nc wh ub [n] = Ok wh' /\ forall i, (i < n + 2)%nat ->
    exists c, (forall s, (s < N)%nat -> rd wh' (i * N + s) = Ok (Some (c s))) /\
      forall v, is_RInt (recon1 N psi c v) 0 1 (f (i + (N - 1))%nat v).
Proof.
  intros Lw Lu U. pose proof u3 as N1. unfold launcher, weno_launcher.
  destruct (weno1_ok N SIG LAMS LAMC EPS inv N1 (vrow ub 0 1 (blen ub)) (fun r => Some (f r)) (n + 2) 0 wh) as [wh' [E [L [V _]]]].
  - lia.
  - intros r Hr. unfold vrow. rewrite (proj2 (Nat.ltb_lt _ _)) by lia. rewrite Nat.mul_1_l. apply rd_ok; [|apply U]; cbn; lia.
  - rewrite E. cbn [bind]. exists wh'. split; [reflexivity|]. intros i Hi.
    assert (Sl : selected N (Z.of_nat (n + 2)) (Z.of_nat 0) (Z.of_nat i) <> []) by (apply selected_ok; [exact Hi|unfold enough; lia]).
    exists (cc nodes inv SIG LAMS LAMC EPS (fun r => Some (f r)) (n + 2) 0 i). split.
    + intros s Hs. apply rd_ok; [rewrite L, Lw; apply pack_lt; assumption|]. rewrite V by assumption. f_equal.
      apply (sweep_fin nodes u3 inv SIG LAMS LAMC EPS (fun r => Some (f r)) f); [reflexivity|exact Sl].
    + intros v. apply (sweep_avg nodes bs u3 inv u4 SIG LAMS LAMC EPS u5 u6 (fun r => Some (f r)) f); [reflexivity|exact Sl].
Qed.

(** C22 in 1-D: cell averages of polynomials of degree < N (one per component, in units of cells) give them back. *)
Theorem weno_exact_1d nc (n : nat) (f : nat -> vec) (q : nat -> nat -> R) (wh ub : buf num) :
  blen wh = ((n + 2) * N)%nat -> blen ub = (n + 2 * N)%nat -> (forall a, (a < n + 2 * N)%nat -> bdat ub a = Some (Some (f a))) ->
  (forall a v, (a < n + 2 * N)%nat -> f a v = cell1 (pol1 N (q v)) a) ->
  exists wh', launcher nc wh ub [n] = Ok wh' /\ forall i, (i < n + 2)%nat ->
    exists c, (forall s, (s < N)%nat -> rd wh' (i * N + s) = Ok (Some (c s))) /\
      forall v x, recon1 N psi c v x = pol1 N (q v) (INR (i + (N - 1)) + x).
Proof.
  intros Lw Lu U Q. pose proof u3 as N1. unfold launcher, weno_launcher.
  destruct (weno1_ok N SIG LAMS LAMC EPS inv N1 (vrow ub 0 1 (blen ub)) (fun r => Some (f r)) (n + 2) 0 wh) as [wh' [E [L [V _]]]].
  - lia.
  - intros r Hr. unfold vrow. rewrite (proj2 (Nat.ltb_lt _ _)) by lia. rewrite Nat.mul_1_l. apply rd_ok; [|apply U]; cbn; lia.
  - rewrite E. cbn [bind]. exists wh'. split; [reflexivity|]. intros i Hi.
    assert (Sl : selected N (Z.of_nat (n + 2)) (Z.of_nat 0) (Z.of_nat i) <> []) by (apply selected_ok; [exact Hi|unfold enough; lia]).
    exists (cc nodes inv SIG LAMS LAMC EPS (fun r => Some (f r)) (n + 2) 0 i). split.
    + intros s Hs. apply rd_ok; [rewrite L, Lw; apply pack_lt; assumption|]. rewrite V by assumption. f_equal.
      apply (sweep_fin nodes u3 inv SIG LAMS LAMC EPS (fun r => Some (f r)) f); [reflexivity|exact Sl].
    + intros v x. rewrite <- pol1_list.
      apply (recon1_nodes nodes bs u1 u2); [rewrite map_length, seq_length; lia|].
      intros s Hs. apply (sweep_exact nodes bs u1 u2 u3 inv u4 SIG LAMS LAMC EPS u5 u6 (fun r => Some (f r)) f _ _ _ (fun v => map (q v) (seq 0 N)));
        [reflexivity|exact Sl|rewrite map_length, seq_length; apply le_n| |exact Hs].
      intros k Hk. fold N in Hk. rewrite Q by lia. unfold cell1. rewrite (RInt_ext _ (evaluate (map (q v) (seq 0 N)))) by (intros; symmetry; apply pol1_list).
      rewrite (is_RInt_unique _ _ _ _ (integrate_RInt _ _ _)). apply integrate_RInt.
Qed.

(** C21, C22 in 2-D on an n x m grid. The hypothesis on n is needed only with NO_CORNERS: see [weno_every_cell_refuted]. *)
Theorem weno_average_2d nc (n m : nat) (f : nat -> vec) (wh ub : buf num) :
  let W := (m + 2 * N)%nat in
  (nc = true -> enough N (n + 2) N) ->
  blen wh = ((n + 2) * (m + 2) * N * N)%nat -> blen ub = ((n + 2 * N) * W)%nat ->
  (forall a, (a < (n + 2 * N) * W)%nat -> bdat ub a = Some (Some (f a))) ->
  exists wh', launcher nc wh ub [n; m] = Ok wh' /\ forall i j, (i < n + 2)%nat -> (j < m + 2)%nat ->
    exists c, (forall s t, (s < N)%nat -> (t < N)%nat -> rd wh' (((i * (m + 2) + j) * N + s) * N + t) = Ok (Some (c s t))) /\
      forall v, is_RInt (fun x => RInt (fun y => recon2 N psi c v x y) 0 1) 0 1 (f ((i + (N - 1)) * W + (j + (N - 1)))%nat v).
Proof.
  intros W En Lw Lu U. pose proof u3 as N1. unfold launcher, weno_launcher.
  assert (EW : (m + 2 + 2 * (N - 1) = W)%nat) by (unfold W; lia). assert (EH : (n + 2 + 2 * (N - 1) = n + 2 * N)%nat) by lia.
  destruct (weno2_ok N SIG LAMS LAMC EPS inv N1 nc wh ub (fun a => Some (f a)) (n + 2) (m + 2)) as [wh' [E [L [V _]]]].
  - lia.
  - rewrite EW, EH. lia.
  - rewrite EW, EH. exact U.
  - rewrite E. cbn [bind]. exists wh'. split; [reflexivity|]. intros i j Hi Hj.
    assert (EY : nc = true -> enough N (m + 2) 1) by (intros _; unfold enough; lia).
    assert (Hu : forall p r : nat, (p < n + 2 + 2 * (N - 1))%nat -> (r < m + 2 + 2 * (N - 1))%nat ->
       (fun a => Some (f a)) (p * (m + 2 + 2 * (N - 1)) + r)%nat = Some (f (p * (m + 2 + 2 * (N - 1)) + r)%nat)) by reflexivity.
    exists (cxy nodes inv SIG LAMS LAMC EPS nc (fun a => Some (f a)) (n + 2) (m + 2) i j). split.
    + intros s t Hs Ht. apply rd_ok; [rewrite L, Lw; apply pack_lt; [apply pack_lt; [apply pack_lt|]|]; assumption|]. rewrite V by assumption. f_equal.
      apply (wh_fin nodes u3 inv SIG LAMS LAMC EPS nc f _ (n + 2) (m + 2) Hu En EY); assumption.
    + intros v. rewrite <- EW. apply (avg2 nodes bs u3 inv u4 SIG LAMS LAMC EPS u5 u6 nc f _ (n + 2) (m + 2) Hu En EY); assumption.
Qed.

Theorem weno_exact_2d nc (n m : nat) (f : nat -> vec) (q : nat -> nat -> nat -> R) (wh ub : buf num) :
  let W := (m + 2 * N)%nat in
  (nc = true -> enough N (n + 2) N) ->
  blen wh = ((n + 2) * (m + 2) * N * N)%nat -> blen ub = ((n + 2 * N) * W)%nat ->
  (forall a, (a < (n + 2 * N) * W)%nat -> bdat ub a = Some (Some (f a))) ->
  (forall p r v, (p < n + 2 * N)%nat -> (r < W)%nat -> f (p * W + r)%nat v = cell2 (pol2 N (q v)) p r) ->
  exists wh', launcher nc wh ub [n; m] = Ok wh' /\ forall i j, (i < n + 2)%nat -> (j < m + 2)%nat ->
    exists c, (forall s t, (s < N)%nat -> (t < N)%nat -> rd wh' (((i * (m + 2) + j) * N + s) * N + t) = Ok (Some (c s t))) /\
      forall v x y, recon2 N psi c v x y = pol2 N (q v) (INR (i + (N - 1)) + x) (INR (j + (N - 1)) + y).
Proof.
  intros W En Lw Lu U Q. pose proof u3 as N1. unfold launcher, weno_launcher.
  assert (EW : (m + 2 + 2 * (N - 1) = W)%nat) by (unfold W; lia). assert (EH : (n + 2 + 2 * (N - 1) = n + 2 * N)%nat) by lia.
  destruct (weno2_ok N SIG LAMS LAMC EPS inv N1 nc wh ub (fun a => Some (f a)) (n + 2) (m + 2)) as [wh' [E [L [V _]]]].
  - lia.
  - rewrite EW, EH. lia.
  - rewrite EW, EH. exact U.
  - rewrite E. cbn [bind]. exists wh'. split; [reflexivity|]. intros i j Hi Hj.
    assert (EY : nc = true -> enough N (m + 2) 1) by (intros _; unfold enough; lia).
    assert (Hu : forall p r : nat, (p < n + 2 + 2 * (N - 1))%nat -> (r < m + 2 + 2 * (N - 1))%nat ->
       (fun a => Some (f a)) (p * (m + 2 + 2 * (N - 1)) + r)%nat = Some (f (p * (m + 2 + 2 * (N - 1)) + r)%nat)) by reflexivity.
    exists (cxy nodes inv SIG LAMS LAMC EPS nc (fun a => Some (f a)) (n + 2) (m + 2) i j). split.
    + intros s t Hs Ht. apply rd_ok; [rewrite L, Lw; apply pack_lt; [apply pack_lt; [apply pack_lt|]|]; assumption|]. rewrite V by assumption. f_equal.
      apply (wh_fin nodes u3 inv SIG LAMS LAMC EPS nc f _ (n + 2) (m + 2) Hu En EY); assumption.
    + intros v. apply (exact2 nodes bs u1 u2 u3 inv u4 SIG LAMS LAMC EPS u5 u6 nc f _ (n + 2) (m + 2) Hu En EY); try assumption.
      intros p r Hp Hr. fold N in Hp, Hr |- *. rewrite EW in *. rewrite EH in Hp. apply Q; assumption.
Qed.

(** C23, first half: what a cell receives is a convex combination, with strictly positive weights that sum to one, of
    the coefficient vectors of the selected stencils, each of which reproduces the data of its own N cells. *)
Theorem weno_weights_convex data nx gap ind (c : nat -> vec) :
  (forall i, (i < N)%nat -> coeffs N SIG LAMS LAMC EPS inv data nx gap ind i = Some (c i)) ->
  let sel := selected N nx gap ind in
  sel <> [] /\ forall v, exists (om : stencil -> R) (w : stencil -> nat -> R),
    (forall s, In s sel -> 0 < om s) /\ lsum om sel = 1 /\
    (forall i, (i < N)%nat -> c i v = lsum (fun s => om s * w s i) sel) /\
    (forall s i, In s sel -> (i < N)%nat -> exists d, data (off N s + i)%nat = Some d /\
       is_RInt (fun t => rsum N (fun j => w s j * psi j t)) (INR (off N s + i) - INR (N - 1)) (INR (off N s + i) - INR (N - 1) + 1) (d v)).
Proof.
  intros H sel. pose proof u3 as N1. pose proof (H 0%nat ltac:(lia)) as H0. unfold coeffs in H0. fold sel in H0.
  destruct (match sel with [] => false | _ => true end) eqn:Es; [|discriminate]. cbn [andb] in H0.
  assert (Hs : sel <> []) by (intros C; rewrite C in Es; discriminate). split; [exact Hs|].
  destruct (forallb _ sel) eqn:Ef; [|discriminate]. rewrite forallb_forall in Ef.
  intros v. exists (omega nodes inv SIG LAMS LAMC EPS (fun k => val (data k)) sel v), (fun s i => wcol N inv (fun k => val (data k)) s v i).
  split; [intros s _; apply (omega_pos nodes inv SIG LAMS LAMC EPS u5 u6); exact Hs|].
  split; [apply (omega_sum nodes inv SIG LAMS LAMC EPS u5 u6); exact Hs|]. split.
  - intros i Hi. specialize (H i Hi). unfold coeffs in H. fold sel in H. rewrite Es in H. cbn [andb] in H.
    rewrite (proj2 (forallb_forall _ _) Ef) in H. injection H as <-. apply (combine_omega nodes inv SIG LAMS LAMC EPS).
  - intros s i Hin Hi. specialize (Ef s Hin). rewrite forallb_forall in Ef. specialize (Ef i ltac:(apply in_seq; lia)).
    destruct (data (off N s + i)%nat) as [d|] eqn:Ed; [|discriminate]. exists d. split; [reflexivity|].
    pose proof (M_int nodes bs s i (wcol N inv (fun k => val (data k)) s v)) as I. fold N in I.
    unfold wcol in I at 2. rewrite (u4 s _ i Hi), Ed in I. cbn [val] in I.
    assert (B : IZR (lo N s i) = INR (off N s + i) - INR (N - 1)).
    { rewrite !INR_IZR_INZ, <- minus_IZR. f_equal. pose proof (lo_off nodes u3 s i). fold N in H1. lia. }
    rewrite plus_IZR, B in I. exact I.
Qed.
End Unpack.
Print Assumptions weno_average_1d.
Print Assumptions weno_exact_1d.
Print Assumptions weno_average_2d.
Print Assumptions weno_exact_2d.
Print Assumptions weno_weights_convex.

(** C23, second half: every cell of a row gets a stencil exactly when the row is long enough for the gap. With gap 0
    (1-D, or NO_CORNERS off) every row is. *)
Theorem weno_every_cell_partial N nx gap : (0 < nx)%nat -> (FN2 N < gap \/ gap = 0)%nat ->
  ((forall ind, (ind < nx)%nat -> selected N (Z.of_nat nx) (Z.of_nat gap) (Z.of_nat ind) <> []) <->
   (2 * gap <= nx + (if Nat.even N then 2 * ((N - 1) / 2) else (N - 1) / 2))%nat).
Proof.
  intros Hn Hg. change ((2 * gap <= nx + (if Nat.even N then 2 * ((N - 1) / 2) else (N - 1) / 2))%nat) with (enough N nx gap). split.
  - intros H. destruct Hg as [Hg|Hg]; [|unfold enough; lia].
    destruct (le_dec (2 * gap) (nx + (if Nat.even N then 2 * FN2 N else FN2 N))) as [E|E]; [exact E|].
    destruct (selected_short N nx gap Hg Hn E) as [ind [Hi Hs]]. exfalso. exact (H ind Hi Hs).
  - intros E ind Hi. apply selected_ok; assumption.
Qed.
Print Assumptions weno_every_cell_partial.

(** With the shipped options (N = 2, NO_CORNERS) a grid one cell wide has cells with no stencil: the reconstruction of
    the ghost cell below the first cell is NaN (0/0) whatever the data, the weights and the matrices are. *)
Theorem weno_every_cell_refuted (inv : stencil -> (nat -> R) -> nat -> R) SIG LAMS LAMC EPS (m : nat) (f : nat -> vec) (wh ub : buf num) :
  blen wh = (3 * (m + 2) * 2 * 2)%nat -> blen ub = (5 * (m + 4))%nat -> (forall a, (a < 5 * (m + 4))%nat -> bdat ub a = Some (Some (f a))) ->
  exists wh', weno_launcher 2 SIG LAMS LAMC EPS inv None true wh ub [1%nat; m] = Ok wh' /\
    forall s t, (s < 2)%nat -> (t < 2)%nat -> rd wh' (((1 * (m + 2) + 0) * 2 + s) * 2 + t) = Ok None.
Proof.
  intros Lw Lu U. unfold weno_launcher.
  destruct (weno2_ok 2 SIG LAMS LAMC EPS inv ltac:(lia) true wh ub (fun a => Some (f a)) 3 (m + 2)) as [wh' [E [L [V _]]]].
  - lia.
  - lia.
  - intros a Ha. apply U. lia.
  - change (1 + 2)%nat with 3%nat. rewrite E. cbn [bind]. exists wh'. split; [reflexivity|]. intros s t Hs Ht.
    apply rd_ok; [rewrite L, Lw; apply pack_lt; [apply pack_lt; [apply pack_lt|]|]; lia|].
    rewrite V by lia. reflexivity.
Qed.
Print Assumptions weno_every_cell_refuted.

(** The linear systems of the stencils are nonsingular, for every order and every set of distinct nodes. *)
Theorem weno_systems_nonsingular nodes bs : distinct nodes -> basis_polys nodes = Ok bs -> (1 <= length nodes)%nat ->
  let N := length nodes in let M := coefficient_matrix N (fun j => nth j bs []) in
  (exists inv, forall s d i, (i < N)%nat -> rsum N (fun j => M s i j * inv s d j) = d i) /\
  (forall s c d, (forall i, (i < N)%nat -> rsum N (fun j => M s i j * c j) = rsum N (fun j => M s i j * d j)) ->
     forall j, (j < N)%nat -> c j = d j).
Proof.
  intros D B N1 N M. split; [exact (solver_exists nodes bs D B N1)|].
  intros s c d H. exact (M_cancel nodes bs D B N1 s c d H).
Qed.
Print Assumptions weno_systems_nonsingular.

(** C24: [oscillation_indicator] adds to its uninitialised return value. If that storage happens to hold c, the result
    is c plus the Gram matrices of the basis derivatives; with c = 0 it is positive semidefinite. *)
Theorem oscillation_gram_partial nodes bs (r0 : buf R) (c : nat -> nat -> R) :
  distinct nodes -> basis_polys nodes = Ok bs -> (1 <= length nodes)%nat ->
  let N := length nodes in let psi := fun j => evaluate (nth j bs []) in
  let G := fun i j => rsum (N - 1) (fun a => RInt (fun t => Derive_n (psi i) (S a) t * Derive_n (psi j) (S a) t) 0 1) in
  blen r0 = (N * N)%nat -> (forall i j, (i < N)%nat -> (j < N)%nat -> bdat r0 (i * N + j)%nat = Some (c i j)) ->
  (exists r, oscillation_indicator N (fun j => nth j bs []) r0 = Ok r /\
     forall i j, (i < N)%nat -> (j < N)%nat -> rd r (i * N + j) = Ok (c i j + G i j)) /\
  (forall w, 0 <= rsum N (fun i => rsum N (fun j => w i * G i j * w j))).
Proof.
  intros D B N1 N psi G L0 C0.
  assert (LB : forall k, (k < N)%nat -> length (nth k bs []) = N) by (intros k Hk; apply (basis_len nodes bs B); exact Hk).
  split.
  - destruct (osc_ok N (fun j => nth j bs []) r0 c N1 LB L0 C0) as [r [E [L V]]]. exists r. split; [exact E|].
    intros i j Hi Hj. apply rd_ok; [rewrite L; apply pack_lt; assumption|]. apply V; assumption.
  - intros w. unfold G.
    rewrite (rsum_ext N _ (fun i => rsum (N - 1) (fun a => rsum N (fun j => w i * gram (fun j => nth j bs []) i j (S a) * w j)))).
    + rewrite rsum_swap. apply rsum_nonneg. intros a Ha. apply (gram_psd N (fun j => nth j bs []) (S a) w LB). lia.
    + intros i Hi. rewrite rsum_swap. apply rsum_ext. intros j Hj. rewrite <- rsum_scal, <- rsum_scal_r. reflexivity.
Qed.
Print Assumptions oscillation_gram_partial.

(** As written, on freshly allocated storage, the first [+=] reads an indeterminate value: undefined behaviour for
    every basis of order N >= 2. *)
Theorem oscillation_uninitialised_refuted nodes bs : basis_polys nodes = Ok bs -> (2 <= length nodes)%nat ->
  let N := length nodes in is_ub (oscillation_indicator N (fun j => nth j bs []) (balloc (N * N))).
Proof.
  intros B N2 N.
  assert (LB : forall k, (k < N)%nat -> length (nth k bs []) = N) by (intros k Hk; apply (basis_len nodes bs B); exact Hk).
  destruct (diff_ok 1 (nth 0 bs [])) as [p [Ep Lp]]; [rewrite LB; lia|].
  destruct (multiply_ok p p) as [pq [Em _]]; [rewrite Lp, LB by lia; lia|].
  assert (F : forall A (f : nat -> A -> res A) n lo s, (0 < n)%nat -> is_ub (f lo s) -> is_ub (for_loop n lo f s)).
  { intros A f n lo s Hn [w Hw]. destruct n; [lia|]. cbn [for_loop]. rewrite Hw. eexists. reflexivity. }
  unfold oscillation_indicator. apply F; [lia|]. apply F; [lia|]. apply F; [lia|].
  rewrite Ep. cbn [bind]. rewrite Em. cbn [bind]. unfold rd, balloc. cbn [blen bdat].
  rewrite (proj2 (Nat.ltb_lt _ _)) by (assert (2 * 2 <= N * N)%nat by (apply Nat.mul_le_mono; exact N2); lia). cbn. eexists. reflexivity.
Qed.
Print Assumptions oscillation_uninitialised_refuted.

(** the hypotheses can be met, for every set of distinct nodes: [weno_setup] with SIG the intended indicator *)
Example weno_hyps nodes : distinct nodes -> (1 <= length nodes)%nat ->
  exists bs inv SIG, weno_setup nodes bs inv SIG 1 100000 (1 / 100).
Proof.
  intros D N1. destruct (basis_ok nodes) as [bs [B _]].
  destruct (solver_exists nodes bs D B N1) as [inv SV].
  set (N := length nodes) in *.
  destruct (oscillation_gram_partial nodes bs (mkbuf (N * N) (fun _ => Some 0)) (fun _ _ => 0) D B N1 eq_refl) as [_ P]; [reflexivity|].
  exists bs, inv, (fun i j => rsum (N - 1) (fun a => RInt (fun t => Derive_n (evaluate (nth i bs [])) (S a) t * Derive_n (evaluate (nth j bs [])) (S a) t) 0 1)).
  repeat split; try lra; assumption.
Qed.
Example weno_nodes : distinct [1 / 2 - 1 / 4; 1 / 2 + 1 / 4].
Proof.
  intros i j Hi Hj. cbn in Hi, Hj.
  do 2 (destruct i as [|i]; [do 2 (destruct j as [|j]; [cbn; intros; try reflexivity; exfalso; lra|]); lia|]). lia.
Qed.
Example enough_shipped : enough 2 4 2 /\ ~ enough 2 3 2 /\ enough 2 3 1.
Proof. unfold enough. cbn. lia. Qed.
