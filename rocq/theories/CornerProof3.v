(** An ADER step on the 4 x 3 periodic grid of CornerProof2.v, with NO_CORNERS: the change of the total mass. *)
From Coq Require Import Reals Lia Lra ZArith FunctionalExtensionality Psatz.
From Verif Require Import Base Options Sum EqModel EqSpec EqProof FvModel FvBody FvSpec FvProof FvProps PolyModel PolyProof WenoModel WenoProof WenoProof2 WenoProof3 WenoProps
  DgModel DgSpec DgProof2 DgProof3 DgProps StepperModel StepperProof GridModel GridSpec GridProps AderModel AderProof AderProof2 AderProof3 AderProps AderProof4 CornerProof CornerProof2.
Import List ListNotations.
Open Scope R_scope.

(** ** an exact solver for the 2-D predictor *)
Lemma two_node_solver_2d o nodes bs w : dg_basis nodes bs w -> N o = 2%nat -> length nodes = 2%nat ->
  exists solve, solves (N o * N o * N o) (kron [full (N o) (Mof nodes bs w); diagonal (N o) w; diagonal (N o) w]) solve.
Proof.
  intros G N2 L. assert (HN : length nodes = N o) by congruence. set (M := Mof nodes bs w).
  assert (N1 : (1 <= N o)%nat) by lia.
  destruct (two_node_solver o nodes bs w G N2 L) as [S1 HS1]. pose proof (weights_nonzero o nodes bs w HN G) as W0.
  assert (S1U := solves_U1 o nodes bs w S1 HS1). fold M in S1U.
  pose (S2 := fun (b : nodal) (r k : nat) => S1 (fun r' k' => b (r' * N o + r mod N o)%nat k' / w (r mod N o)%nat) (r / N o)%nat k). exists S2.
  destruct (kron_U2 o w M N1) as [k [Ek [_ [_ [_ K]]]]]. exists k, (U2 o w M). split; [exact Ek|]. split; [exact K|].
  intros b r a Hr. rewrite (U2_row o w M N1 (S2 b) r a Hr).
  pose proof (Nat.mod_upper_bound r (N o) ltac:(lia)) as B. pose proof (Nat.mod_upper_bound (r / N o) (N o) ltac:(lia)) as B'.
  set (j := (r mod N o)%nat) in *. set (i := (r / N o mod N o)%nat) in *.
  assert (Q := S1U (fun r' k' => b (r' * N o + j)%nat k' / w j) (r / N o)%nat a ltac:(apply Nat.div_lt_upper_bound; lia)).
  rewrite U1_row in Q by (try assumption; apply Nat.div_lt_upper_bound; lia). fold i in Q. rewrite Nat.div_div in Q by lia.
  rewrite (rsum_ext (N o) _ (fun m => w j * (M (r / (N o * N o))%nat m * w i * S1 (fun r' k' => b (r' * N o + j)%nat k' / w j) (m * N o + i)%nat a))).
  - rewrite rsum_scal, Q. replace (r / N o * N o + j)%nat with r; [field; apply W0, B|]. unfold j. rewrite Nat.mul_comm. apply Nat.div_mod. lia.
  - intros m Hm. unfold S2. destruct (divmod (N o) (m * N o + i) j B) as [-> ->]. ring.
Qed.

Section Leak.
Notation o := shipped.
Variables (ph : phys) (p : R) (e : vec).
Notation C := (dens e).
Notation mx r := (max_abs_eigs ph (C r) 0).
(** states of different densities at rest, under the same pressure; the lighter, the faster *)
Hypothesis HC : forall r, 1 / 2 <= r <= 3 / 2 -> at_rest ph p (C r).
Hypothesis HM : forall r s, 1 / 2 <= r -> r < s -> s <= 3 / 2 -> mx s < mx r.
Variables (nodes : list R) (bs : list poly) (w : nat -> R).
Hypothesis HN : length nodes = 2%nat.
Hypothesis HB : dg_basis nodes bs w.
Variables (inv : stencil -> (nat -> R) -> nat -> R) (SIG : nat -> nat -> R) (LAMS LAMC EPS : R).
Hypothesis HW : weno_setup nodes bs inv SIG LAMS LAMC EPS.
Variables (dt : R) (dX : nat -> R) (DG_IT : nat) (DG_TOL : R) (solve : nat -> nodal -> nodal).
Variable nonlin_solve : (option nodal -> res (option nodal)) -> option nodal -> res (option nodal).
Variables (valid : nodal -> bool) (nan_far : option nodal -> option nodal -> bool).
Hypothesis HI : (1 <= DG_IT)%nat.
Hypothesis HTol : 0 <= DG_TOL.
Hypothesis HS : solver_of o nodes bs w solve 2.
Hypothesis Hval : forall q, (forall s, (s < 8)%nat -> exists r, 1 / 2 <= r <= 3 / 2 /\ q s = C r) -> valid q = true.
Variable wallf : nat -> nat -> num -> num.
Variable z : R.
Hypothesis Hz : 9 / 10 <= z < 1.
Notation xi s := (nth s nodes 0).
Notation step := (ader_step o ph (fun k => nth k nodes 0%R) w (end_values bs) (Dv bs nodes) 0 dt dX SIG LAMS LAMC EPS inv None
  (Dmat bs (fun k => nth k nodes 0%R) w) (Mof nodes bs w) DG_IT DG_TOL solve nonlin_solve valid nan_far false false).
Notation wh := (wh_val 2 SIG LAMS LAMC EPS inv true (Uc e z) 6 5).
Notation PhiQ := (Phi o ph w (end_values bs) (Dv bs nodes) (Dmat bs (fun k => nth k nodes 0%R) w) (Mof nodes bs w) dt dX DG_IT DG_TOL solve nonlin_solve valid nan_far false false).

(** the reconstructed values in cell (i, j) of the extended grid *)
Definition rb (i j s : nat) : vec := val (wh i j (s / 2) (s mod 2)).
Lemma rb_ok i j s : (i < 6)%nat -> (j < 5)%nat -> (s < 4)%nat -> wh i j (s / 2) (s mod 2) = Some (rb i j s) /\ exists r, 1 / 2 <= r <= 3 / 2 /\ rb i j s = C r.
Proof using HN HB HW Hz. clear HI.
  intros Hi Hj Hs. destruct (wh_range nodes bs w HN HB inv SIG LAMS LAMC EPS HW e z Hz i j (s / 2) (s mod 2) Hi Hj) as (r & E & B).
  - apply Nat.div_lt_upper_bound; lia.
  - apply Nat.mod_upper_bound. lia.
  - unfold rb. rewrite E. split; [reflexivity|]. exists r. split; [exact B|reflexivity].
Qed.

Definition blocks (i j : nat) : nodal := fun s => rb i j (s mod 4).
Definition fl (d : nat) (l r : nodal) : R := flux2 o ph (fun k => nth k nodes 0%R) w (end_values bs) 0 d l r 0.

(** the change of the total mass in one step *)
Definition chx : R := rsum 3 (fun b => fl 0 (blocks 0 (S b)) (blocks 1 (S b)) - fl 0 (blocks 4 (S b)) (blocks 5 (S b))).
Definition chy : R := rsum 4 (fun a => fl 1 (blocks (S a) 0) (blocks (S a) 1) - fl 1 (blocks (S a) 3) (blocks (S a) 4)).

Definition u0 : buf num := mkbuf 12 (fun a => Some (Some (C (rho0 z (a / 3) (a mod 3))))).
Definition ub0 : buf num := balloc 56.
(** the mask the program makes *)
Definition mask0 : buf bool := match extend_mask (mkbuf 12 (fun _ => Some true)) (balloc 30) [4; 3]%nat with Ok m => m | _ => balloc 0 end.
Lemma mask0_full : full_mask [4; 3]%nat mask0.
Proof using. clear HI HN. exists (mkbuf 12 (fun _ => Some true)), (balloc 30). split; [split; reflexivity|]. split; reflexivity. Qed.
Lemma mask0_full2 : full2 4 3 mask0.
Proof using. clear HI HN. apply full_mask_2; [lia|lia|exact mask0_full]. Qed.
Lemma mask0_len : blen mask0 = 30%nat.
Proof using. clear HI HN. apply mask0_full2. Qed.
Definition oc (c : nat) : bool := off_corner 4 3 (c / 5) (c mod 5).
Lemma mask0_rd c : (c < 30)%nat -> rd mask0 c = Ok (oc c).
Proof using. clear HI HN.
  intros Hc. rewrite (Nat.div_mod_eq c 5), (Nat.mul_comm 5) at 1. apply (full2_rd mask0_full2); [apply Nat.div_lt_upper_bound; lia|apply Nat.mod_upper_bound; lia].
Qed.
Lemma oc_at i j : (j < 5)%nat -> oc (i * 5 + j) = off_corner 4 3 i j.
Proof using. clear HI HN. intros Hj. unfold oc. destruct (divmod 5 i j Hj) as [-> ->]. reflexivity. Qed.

Lemma wrapped a : (a < 56)%nat -> rho0 z (wrap 4 2 (a / 7)) (wrap 3 2 (a mod 7)) = rho_ub z a.
Proof using. clear HI HN.
  intros Ha. unfold rho0, rho_ub. assert (A : (a / 7 < 8)%nat) by (apply Nat.div_lt_upper_bound; lia). assert (B := Nat.mod_upper_bound a 7 ltac:(lia)).
  set (i := (a / 7)%nat) in *. set (j := (a mod 7)%nat) in *. clearbody i j.
  do 8 (destruct i as [|i]; [do 7 (destruct j as [|j]; [reflexivity|]); lia|]). lia.
Qed.

Lemma numflux_ext_k l l' r r' k d : l = l' -> r = r' -> numflux o ph (fun k => nth k nodes 0%R) w 0 l r d k = numflux o ph (fun k => nth k nodes 0%R) w 0 l' r' d k.
Proof using. clear HI HN. now intros -> ->. Qed.
Lemma fl_ext d l l' r r' : (forall s k, (s < 4)%nat -> l s k = l' s k) -> (forall s k, (s < 4)%nat -> r s k = r' s k) -> fl d l r = fl d l' r'.
Proof using. clear HI HN.
  intros Hl Hr. unfold fl, flux2. apply rsum_ext. intros s Hs. cbn in Hs. f_equal. apply numflux_ext_k; apply functional_extensionality; intros k; unfold endpts2d.
  - destruct d as [|d]; (apply rsum_ext; intros q Hq; cbn in Hq; f_equal; apply Hl; cbn; lia).
  - destruct d as [|d]; (apply rsum_ext; intros q Hq; cbn in Hq; f_equal; apply Hr; cbn; lia).
Qed.

Lemma step_mass : dX 0%nat <> 0 -> dX 1%nat <> 0 -> exists ub u' x', boundaries num 2 wallf u0 ub0 [4; 3]%nat (fun _ => PERIODIC) = Ok ub /\
  step u0 ub mask0 [4; 3]%nat = Ok u' /\ holds 12 u' x' /\
  total2 4 3 (fun a b => x' (a * 3 + b)%nat) 0 = total2 4 3 (fun a b => C (rho0 z a b)) 0 + dt / dX 0%nat * chx + dt / dX 1%nat * chy.
Proof.
  intros D0 D1. assert (HR : runs o 0 dX) by (split; [reflexivity|]; split; [lia|]; split; assumption).
  pose proof HR as [HV [HF _]].
  destruct (boundaries_2d_correct num 2 wallf u0 ub0 4 3 (fun _ => PERIODIC) (fun i j => Some (C (rho0 z i j)))) as [ub [Eb [Lub _]]]; try lia.
  { unfold PERIODIC. lia. } { reflexivity. }
  { intros i j Hi Hj. cbn [u0 bdat]. do 4 f_equal; [apply (divmod 3 i j Hj)|apply (divmod 3 i j Hj)]. }
  { reflexivity. }
  destruct (periodic_2d num 2 wallf u0 ub0 ub 4 3 (fun _ => PERIODIC) (fun i j => Some (C (rho0 z i j)))) as [_ Wub]; try lia; try reflexivity.
  { intros i j Hi Hj. cbn [u0 bdat]. do 4 f_equal; [apply (divmod 3 i j Hj)|apply (divmod 3 i j Hj)]. }
  { exact Eb. }
  assert (W : whole ub (Uc e z)).
  { intros a Ha. rewrite Wub by exact Ha. rewrite Lub in Ha. cbn in Ha. unfold Uc. do 3 f_equal. apply wrapped. exact Ha. }
  destruct (weno2d 2 SIG LAMS LAMC EPS inv ltac:(lia) None true ub (Uc e z) 4 3 Lub W) as [whb [Ewh [Lwh Vwh]]].
  (* predictor *)
  assert (CELL : forall c, (c < 30)%nat -> exists q, PhiQ 2%nat (map (fun s => Some (rb (c / 5) (c mod 5) s)) (seq 0 4)) = Ok (Some (time_blocks o 2 (Some q))) /\
     forall s k, (s < 8)%nat -> q s k = rb (c / 5) (c mod 5) (s mod 4) k).
  { intros c Hc. assert (Hi : (c / 5 < 6)%nat) by (apply Nat.div_lt_upper_bound; lia). pose proof (Nat.mod_upper_bound c 5 ltac:(lia)) as Hj.
    destruct (pred_rest o ph p eq_refl eq_refl eq_refl nodes bs w HN HB dt dX DG_IT DG_TOL solve nonlin_solve valid nan_far HI HTol HS (rb (c / 5) (c mod 5))) as [q [E F]].
    - intros s Hs. destruct (rb_ok (c / 5) (c mod 5) s Hi Hj Hs) as [_ (r & B & ->)]. apply HC, B.
    - intros q Hq. apply Hval. intros s Hs. rewrite Hq by exact Hs. destruct (rb_ok (c / 5) (c mod 5) (s mod 4) Hi Hj (Nat.mod_upper_bound s 4 ltac:(lia))) as [_ (r & B & E)]. exists r. split; [exact B|exact E].
    - exists q. split; [|exact F]. unfold Phi. change (seq 0 4) with (seq 0 (N o * N o)). rewrite E. reflexivity. }
  assert (PC : forall c, (c < 30)%nat -> pcell (option nodal) PhiQ 2 4 whb mask0 c = if oc c then PhiQ 2%nat (map (fun s => Some (rb (c / 5) (c mod 5) s)) (seq 0 4)) else Ok None).
  { intros c Hc. assert (Hi : (c / 5 < 6)%nat) by (apply Nat.div_lt_upper_bound; lia). pose proof (Nat.mod_upper_bound c 5 ltac:(lia)) as Hj.
    unfold pcell. rewrite mask0_rd by exact Hc. cbn [bind]. destruct (oc c); [|reflexivity].
    assert (RD : forall s, (s < 4)%nat -> rd whb (c * 4 + s) = Ok (Some (rb (c / 5) (c mod 5) s))).
    { intros s Hs. apply rd_ok; [rewrite Lwh; lia|].
      assert (Ei : (c * 4 + s = ((c / 5 * (3 + 2) + c mod 5) * 2 + s / 2) * 2 + s mod 2)%nat).
      { pose proof (Nat.div_mod c 5 ltac:(lia)). pose proof (Nat.div_mod s 2 ltac:(lia)). lia. }
      rewrite Ei, Vwh; [|exact Hi|exact Hj|apply Nat.div_lt_upper_bound; lia|apply Nat.mod_upper_bound; lia].
      cbn [post pre]. destruct (rb_ok (c / 5) (c mod 5) s Hi Hj Hs) as [E _]. f_equal. exact E. }
    cbn [gather]. replace (c * 4)%nat with (c * 4 + 0)%nat by lia. rewrite <- !Nat.add_succ_r. rewrite !RD by lia. reflexivity. }
  destruct (predictor_ok 2 ltac:(lia) (option nodal) PhiQ 2 4 (balloc (30 * 2)) whb mask0 (fun c => if oc c then match PhiQ 2%nat (map (fun s => Some (rb (c / 5) (c mod 5) s)) (seq 0 4)) with Ok f => f | _ => None end else None)) as [qh [Eqh [Lq Vq]]].
  { rewrite mask0_len. cbn [balloc blen]. lia. }
  { intros c Hc. rewrite mask0_len in Hc. rewrite PC by exact Hc. destruct (oc c); [|reflexivity]. destruct (CELL c Hc) as [q [E _]]. rewrite E. reflexivity. }
  set (q := fun a : nat => match bdat qh a with Some b => unwrap b | None => zblk end).
  assert (FIN : forall a, (a < 60)%nat -> oc (a / 2) = true -> bdat qh a = Some (Some (q a)) /\ forall s k, (s < 4)%nat -> q a s k = rb (a / 2 / 5) (a / 2 mod 5) s k).
  { intros a Ha OC. assert (Hc : (a / 2 < 30)%nat) by (apply Nat.div_lt_upper_bound; lia). pose proof (Nat.mod_upper_bound a 2 ltac:(lia)) as Ht.
    destruct (CELL (a / 2)%nat Hc) as [qc [E F]].
    assert (Ea : bdat qh a = Some (Some (fun s => qc (a mod 2 * 4 + s)%nat))).
    { rewrite (Nat.div_mod a 2 ltac:(lia)) at 1. rewrite (Nat.mul_comm 2). rewrite Vq by (rewrite ?mask0_len; assumption). rewrite OC, E. reflexivity. }
    unfold q. rewrite Ea. split; [reflexivity|]. intros s k Hs. cbn [unwrap]. rewrite F by lia. f_equal.
    rewrite Nat.add_comm, Nat.mod_add by lia. apply Nat.mod_small, Hs. }
  (* finite volumes *)
  assert (H1 : holds2 o true 4 3 (mkbuf 12 (fun a => Some (C (rho0 z (a / 3) (a mod 3))))) (strip qh) mask0 (fun a b => C (rho0 z a b)) (fun i j t => q ((i * 5 + j) * 2 + t)%nat) (off_corner 4 3)).
  { split; [reflexivity|]. split; [|split].
    - intros a b Ha Hb. cbn [bdat]. do 3 f_equal; [apply (divmod 3 a b Hb)|apply (divmod 3 a b Hb)].
    - intros i j t Hi Hj Ht. cbn [nt_of N o] in *. change (N shipped) with 2%nat in *. assert (B : ((i * 5 + j) * 2 + t < 60)%nat) by lia.
      apply rd_ok; cbn [strip blen bdat]; [rewrite Lq; exact B|]. reflexivity.
    - intros i j Hi Hj. apply (full2_rd mask0_full2); assumption. }
  destruct (fv_conserves_2d o ph (fun k => nth k nodes 0%R) w (end_values bs) (Dv bs nodes) true true 0 dt dX 4 3 _ _ _ _ _ _ HR H1) as [u2 [x2 [E2 [L2 [V2 T2]]]]].
  destruct (fv_is_ader o ph (fun k => nth k nodes 0%R) w (end_values bs) (Dv bs nodes) 0 dt dX HF SIG LAMS LAMC EPS inv None PhiQ
     (mkbuf 12 (fun a => Some (C (rho0 z (a / 3) (a mod 3))))) ub mask0 [4; 3]%nat u2 whb qh q u0 (or_intror eq_refl)) as [u' [Ea Ru']].
  { exact Ewh. } { exact Eqh. } { intros i t Ht Ha Mi. change (N o) with 2%nat in *. rewrite Lq in Ha. apply FIN; [exact Ha|]. destruct (divmod 2 i t Ht) as [-> _].
    rewrite mask0_rd in Mi by (cbn [balloc blen] in Ha; lia). now injection Mi. } { exact E2. }
  { split; [reflexivity|]. intros a x. cbn [bdat u0]. intros [= <-]. eexists. split; reflexivity. }
  exists ub, u', (fun c => x2 (c / 3)%nat (c mod 3)%nat). split; [exact Eb|]. split; [exact Ea|]. destruct Ru' as [RL RV]. split; [split|].
  - rewrite <- RL. exact L2.
  - intros c Hc. assert (Ha : (c / 3 < 4)%nat) by (apply Nat.div_lt_upper_bound; lia). pose proof (Nat.mod_upper_bound c 3 ltac:(lia)) as Hb.
    destruct (RV c (x2 (c / 3)%nat (c mod 3)%nat)) as [y [Ey ->]]; [|exact Ey].
    rewrite (Nat.div_mod_eq c 3) at 1. rewrite (Nat.mul_comm 3). apply V2; assumption.
  - transitivity (total2 4 3 x2 0).
    { unfold total2. apply rsum_ext. intros a Ha. apply rsum_ext. intros b Hb. destruct (divmod 3 a b Hb) as [-> ->]. reflexivity. }
    rewrite (T2 0%nat ltac:(left; lia)).
    destruct (two_nodes nodes bs w HN HB) as (h & _ & _ & _ & W0 & W1).
    rewrite (rsum_zero (nt_of (N o) true) (fun t => _ * rsum 4 (fun a => rsum 3 (fun b => on _ (sources2 _ _ _ _ _ _))))%R).
    2:{ intros t Ht. rewrite rsum_zero; [ring|]. intros a Ha. apply rsum_zero. intros b Hb. rewrite off_x by lia. unfold on, sources2. apply rsum_zero. intros s Hs. apply rsum_zero. intros s' Hs'. unfold src.
        change (N o) with 2%nat in *. change (nt_of 2 true) with 2%nat in Ht.
        set (A := ((S a * 5 + S b) * 2 + t)%nat). assert (BA : (A < 60)%nat) by (unfold A; lia). destruct (FIN A BA) as [_ F]; [unfold A; destruct (divmod 2 (S a * 5 + S b) t Ht) as [-> _]; rewrite oc_at by lia; apply off_x; lia|].
        replace (q A (s * 2 + s')%nat) with (rb (A / 2 / 5) (A / 2 mod 5) (s * 2 + s')) by (symmetry; apply functional_extensionality; intros k; apply F; lia).
        destruct (rb_ok (A / 2 / 5) (A / 2 mod 5) (s * 2 + s')) as [_ (r & Br & ->)]; [apply Nat.div_lt_upper_bound; [lia|]; apply Nat.div_lt_upper_bound; lia|apply Nat.mod_upper_bound; lia|lia|].
        destruct (HC r Br) as (_ & _ & _ & _ & _ & SR). rewrite SR. ring. }
    assert (QB : forall i j t s k, (i < 6)%nat -> (j < 5)%nat -> off_corner 4 3 i j = true -> (t < 2)%nat -> (s < 4)%nat -> q ((i * 5 + j) * 2 + t)%nat s k = blocks i j s k).
    { intros i j t s k Hi Hj OC Ht Hs. assert (B : ((i * 5 + j) * 2 + t < 60)%nat) by lia. destruct (divmod 2 (i * 5 + j) t Ht) as [D2 _].
      destruct (FIN _ B) as [_ F]; [rewrite D2, oc_at by exact Hj; exact OC|]. rewrite F by exact Hs. rewrite D2. destruct (divmod 5 i j Hj) as [-> ->]. unfold blocks. now rewrite Nat.mod_small. }
    rewrite (rsum_ext (nt_of (N o) true) (fun t => _ / dX 0%nat * _)%R (fun t => tw w true dt t * (chx / dX 0%nat))).
    2:{ intros t Ht. change (nt_of (N o) true) with 2%nat in Ht. unfold chx. unfold Rdiv. rewrite (Rmult_assoc _ (/ _)). f_equal. rewrite Rmult_comm. f_equal. apply rsum_ext. intros b Hb. rewrite !off_y by lia. cbn [andb on].
        match goal with |- ?x - ?y = ?x' - ?y' => assert (x = x') as -> by (apply fl_ext; intros s k Hs; apply QB; try lia; apply off_y; lia); assert (y = y') as -> by (apply fl_ext; intros s k Hs; apply QB; try lia; apply off_y; lia) end. reflexivity. }
    rewrite (rsum_ext (nt_of (N o) true) (fun t => _ / dX 1%nat * _)%R (fun t => tw w true dt t * (chy / dX 1%nat))).
    2:{ intros t Ht. change (nt_of (N o) true) with 2%nat in Ht. unfold chy. unfold Rdiv. rewrite (Rmult_assoc _ (/ _)). f_equal. rewrite Rmult_comm. f_equal. apply rsum_ext. intros b Hb. rewrite !off_x by lia. cbn [andb on].
        match goal with |- ?x - ?y = ?x' - ?y' => assert (x = x') as -> by (apply fl_ext; intros s k Hs; apply QB; try lia; apply off_x; lia); assert (y = y') as -> by (apply fl_ext; intros s k Hs; apply QB; try lia; apply off_x; lia) end. reflexivity. }
    rewrite !rsum_scal_r. change (nt_of (N o) true) with 2%nat. unfold tw. cbn [rsum]. rewrite W0, W1. field. split; assumption.
Qed.

(** the end values of linear functions *)
Lemma ends_two : exists h, h * h = 1 / 12 /\ xi 0 = 1 / 2 - h /\ xi 1 = 1 / 2 + h /\ w 0%nat = 1 / 2 /\ w 1%nat = 1 / 2 /\
  end_values bs 1 0 * (- h) = (1 / 2 - h) / 2 /\ end_values bs 1 1 * h = (1 / 2 + h) / 2 /\
  end_values bs 1 0 + end_values bs 1 1 = 1 /\ end_values bs 0 0 + end_values bs 0 1 = 1.
Proof using HN HB. clear HI.
  destruct (two_nodes nodes bs w HN HB) as (h & Hh & X0 & X1 & W0 & W1). exists h. repeat (split; [assumption|]).
  pose proof HB as [DN [Hb [N1 EX]]].
  assert (S : forall x, evaluate (nth 0 bs []) x + evaluate (nth 1 bs []) x = 1).
  { intros x. assert (E := sum_psi nodes bs DN Hb N1 x). rewrite HN in E. cbn [rsum] in E. lra. }
  assert (L : evaluate (nth 0 bs []) 1 * xi 0 + evaluate (nth 1 bs []) 1 * xi 1 = 1).
  { assert (E := b_interp nodes bs DN Hb [0; 1] 1 ltac:(rewrite HN; cbn; lia)). rewrite HN in E. cbn [rsum] in E. unfold evaluate in E at 1 2 4. cbn [map length seq nth fold_right co] in E. cbn in E. lra. }
  unfold end_values. cbn [Nat.eqb]. assert (S1 := S 1). assert (S0 := S 0). set (a := evaluate (nth 0 bs []) 1) in *. set (b := evaluate (nth 1 bs []) 1) in *.
  rewrite X0, X1 in L. repeat split; try assumption; nra.
Qed.

Lemma numflux_rest r s : 1 / 2 <= r <= 3 / 2 -> 1 / 2 <= s <= 3 / 2 -> numflux o ph (fun k => nth k nodes 0%R) w 0 (C r) (C s) 0 0 = Rmax (mx r) (mx s) * (r - s) / 2.
Proof using HC. clear HI HN.
  intros Hr Hs. unfold numflux. cbn [D]. unfold D_RUS. rewrite !(flux_rest o ph p) by (try reflexivity; try (apply HC; assumption); lia).
  unfold Fr. cbn [Nat.eqb Nat.add]. unfold dens. cbn [Nat.eqb]. field.
Qed.

(** only the face next to the corner leaks *)
Lemma chx_leaks : chx <> 0.
Proof using HC HM HN HB HW Hz. clear HI.
  destruct ends_two as (h & Hh & X0 & X1 & W0 & W1 & E0 & E1 & ES & ES0).
  assert (HE : forall s, (s < 4)%nat -> blocks 0 1 s = C 1 /\ blocks 1 1 s = C 1 /\ blocks 5 1 s = C 1).
  { intros s Hs. unfold blocks, rb. rewrite (Nat.mod_small s 4 Hs). assert (A : (s / 2 < 2)%nat) by (apply Nat.div_lt_upper_bound; lia). pose proof (Nat.mod_upper_bound s 2 ltac:(lia)) as B.
    rewrite !(wh_first nodes bs HN inv SIG LAMS LAMC EPS HW e z) by auto. auto. }
  assert (IM : forall i j s, (s < 4)%nat -> i = 0%nat \/ i = 1%nat -> j = 2%nat \/ j = 3%nat -> blocks i j s = blocks (4 + i) j s).
  { intros i j s Hs Hi Hj. unfold blocks, rb. rewrite (wh_image nodes bs HN inv SIG LAMS LAMC EPS HW e z i j) by (try assumption; (apply Nat.div_lt_upper_bound; [lia|pose proof (Nat.mod_upper_bound s 4 ltac:(lia)); lia])). reflexivity. }
  destruct (wh_corner nodes bs HN inv SIG LAMS LAMC EPS HW e z 0 ltac:(lia)) as (t0 & T0 & F0).
  destruct (wh_corner nodes bs HN inv SIG LAMS LAMC EPS HW e z 1 ltac:(lia)) as (t1 & T1 & F1).
  set (K := - (1 - z) * ((1 / 2 - h) / 2 * t0 + (1 / 2 + h) / 2 * t1)).
  assert (Hh2 : - (1 / 2) < h < 1 / 2) by nra.
  assert (P0 : 0 < (1 / 2 - h) * t0 < 1 / 2 - h) by (split; [apply Rmult_lt_0_compat; lra|rewrite <- (Rmult_1_r (1 / 2 - h)) at 2; apply Rmult_lt_compat_l; lra]).
  assert (P1 : 0 < (1 / 2 + h) * t1 < 1 / 2 + h) by (split; [apply Rmult_lt_0_compat; lra|rewrite <- (Rmult_1_r (1 / 2 + h)) at 2; apply Rmult_lt_compat_l; lra]).
  assert (HK : - (1 / 10) <= K < 0).
  { assert (KE : K = - ((1 - z) * (((1 / 2 - h) * t0 + (1 / 2 + h) * t1) / 2))) by (unfold K; field). rewrite KE.
    set (y := ((1 / 2 - h) * t0 + (1 / 2 + h) * t1) / 2) in *. assert (0 < y < 1 / 2) by (unfold y; lra). clearbody y. nra. }
  assert (ONE : forall e', (e' < 2)%nat -> forall i, i = 0%nat \/ i = 1%nat \/ i = 5%nat -> forall s, (s < 2)%nat -> endpts2d o (end_values bs) (blocks i 1) 0 e' s = C 1).
  { intros e' He i Hi s Hs. apply functional_extensionality. intros k. unfold endpts2d. change (N o) with 2%nat. cbn [rsum].
    assert (BB : forall s, (s < 4)%nat -> blocks i 1 s = C 1) by (intros q Hq; destruct (HE q Hq) as (A & B & Cc); destruct Hi as [-> | [-> | ->]]; assumption).
    rewrite !BB by lia. transitivity ((end_values bs e' 0 + end_values bs e' 1) * C 1 k); [ring|]. destruct e' as [|[|e']]; [rewrite ES0|rewrite ES|lia]; ring. }
  assert (COR : forall s, (s < 2)%nat -> endpts2d o (end_values bs) (blocks 4 1) 0 1 s = C (1 + K * (xi s - 1 / 2))).
  { intros s Hs. apply functional_extensionality. intros k. unfold endpts2d. change (N o) with 2%nat. cbn [rsum].
    assert (B0 : blocks 4 1 (0 * 2 + s)%nat = C (1 - t0 * (1 - z) * (xi 0 - 1 / 2) * (xi s - 1 / 2))).
    { unfold blocks, rb. rewrite (Nat.mod_small _ 4) by lia. destruct (divmod 2 0 s Hs) as [-> ->]. rewrite F0 by exact Hs. reflexivity. }
    assert (B1 : blocks 4 1 (1 * 2 + s)%nat = C (1 - t1 * (1 - z) * (xi 1 - 1 / 2) * (xi s - 1 / 2))).
    { unfold blocks, rb. rewrite (Nat.mod_small _ 4) by lia. destruct (divmod 2 1 s Hs) as [-> ->]. rewrite F1 by exact Hs. reflexivity. }
    rewrite B0, B1. unfold dens. destruct (Nat.eqb k 0).
    - rewrite X0, X1. unfold K. set (y := xi s - 1 / 2). replace (1 / 2 - h - 1 / 2) with (- h) by ring. replace (1 / 2 + h - 1 / 2) with h by ring.
      transitivity ((end_values bs 1 0 + end_values bs 1 1) - (1 - z) * (t0 * (end_values bs 1 0 * - h) + t1 * (end_values bs 1 1 * h)) * y); [ring|]. rewrite ES, E0, E1. ring.
    - transitivity ((end_values bs 1 0 + end_values bs 1 1) * e k); [ring|]. rewrite ES. ring. }
  unfold chx. cbn [rsum].
  assert (Z : forall j, j = 2%nat \/ j = 3%nat -> fl 0 (blocks 0 j) (blocks 1 j) = fl 0 (blocks 4 j) (blocks 5 j)).
  { intros j Hj. apply fl_ext; intros s k Hs; [rewrite (IM 0%nat j s)|rewrite (IM 1%nat j s)]; auto. }
  rewrite (Z 2%nat), (Z 3%nat) by auto.
  assert (FA : fl 0 (blocks 0 1) (blocks 1 1) = 0).
  { unfold fl, flux2. apply rsum_zero. intros s Hs. rewrite !ONE by (auto; try lia; exact Hs). rewrite numflux_rest by lra. replace (1 - 1) with 0 by ring. unfold Rdiv. ring. }
  assert (FB : fl 0 (blocks 4 1) (blocks 5 1) = 1 / 4 * (K * h) * (Rmax (mx (1 + K * h)) (mx 1) - Rmax (mx (1 + K * - h)) (mx 1))).
  { unfold fl, flux2. change (N o) with 2%nat. cbn [rsum]. rewrite !COR, !ONE by (auto; lia). rewrite X0, X1. replace (1 / 2 - h - 1 / 2) with (- h) by ring. replace (1 / 2 + h - 1 / 2) with h by ring.
    rewrite !numflux_rest by nra. rewrite W0, W1. field. }
  rewrite FA, FB. set (c := K * h) in *. replace (K * - h) with (- c) by (unfold c; ring).
  assert (Hc : - (1 / 10) <= c <= 1 / 10) by (unfold c; nra). assert (C0 : c <> 0) by (unfold c; nra).
  destruct (Rlt_le_dec c 0) as [Neg | Pos].
  - rewrite (Rmax_left (mx (1 + c))) by (left; apply HM; lra). rewrite (Rmax_right (mx (1 + - c))) by (left; apply HM; lra).
    assert (A := HM (1 + c) 1 ltac:(lra) ltac:(lra) ltac:(lra)). nra.
  - assert (Pc : 0 < c) by lra. rewrite (Rmax_right (mx (1 + c))) by (left; apply HM; lra). rewrite (Rmax_left (mx (1 + - c))) by (left; apply HM; lra).
    assert (A := HM (1 + - c) 1 ltac:(lra) ltac:(lra) ltac:(lra)). nra.
Qed.
End Leak.
