(** The split step on the 4 x 3 periodic grid of CornerProof2.v, with NO_CORNERS: the change of the total mass. *)
From Coq Require Import Reals Lia Lra ZArith FunctionalExtensionality Psatz.
From Verif Require Import Base Options Sum EqModel EqSpec EqProof FvModel FvBody FvSpec FvProof FvProps PolyModel PolyProof WenoModel WenoProof WenoProof2 WenoProof3 WenoProps
  DgModel DgSpec DgProof2 DgProof3 DgProps StepperModel StepperProof GridModel GridSpec GridProps AderModel AderProof AderProof2 AderProof3 AderProps AderProof4
  HomogModel SplitProof CornerProof CornerProof2 CornerProof3.
Import List ListNotations.
Open Scope R_scope.

Lemma relax_id (T : Type) m (k : T) u v : fold_res do_update (relax T (fun x => x) m) u = Ok v -> forall c, bdat u c = Some k -> bdat v c = Some k.
Proof.
  unfold relax. generalize (seq 0 m). intros l. revert u. induction l as [|b l IH]; cbn [map fold_res]; intros u E c Hc; [injection E as <-; exact Hc|].
  apply bind_ok in E. destruct E as [u1 [E1 E3]]. apply (IH u1 E3). unfold do_update in E1. apply bind_ok in E1. destruct E1 as [y [Ey Ew]]. cbn [fst snd] in Ey, Ew.
  unfold rd in Ey. destruct (Nat.ltb b (blen u)) eqn:Lb; [|discriminate]. destruct (bdat u b) as [y'|] eqn:Db; [|discriminate]. injection Ey as <-.
  unfold wr in Ew. rewrite Lb in Ew. injection Ew as <-. cbn [bdat]. unfold upd. destruct (Nat.eqb_spec c b) as [->|]; congruence.
Qed.

Section Leak.
Notation o := shipped.
Variables (ph : phys) (p : R) (e : vec).
Notation C := (dens e).
Hypothesis HC : forall r, 1 / 2 <= r <= 3 / 2 -> at_rest ph p (C r).
Variables (nodes : list R) (bs : list poly) (w : nat -> R).
Hypothesis HN : length nodes = 2%nat.
Hypothesis HB : dg_basis nodes bs w.
Variables (inv : stencil -> (nat -> R) -> nat -> R) (SIG : nat -> nat -> R) (LAMS LAMC EPS : R).
Hypothesis HW : weno_setup nodes bs inv SIG LAMS LAMC EPS.
Variables (dt : R) (dX : nat -> R).
Variable valid : nodal -> bool.
Hypothesis Hval : forall q, (forall s, (s < 4)%nat -> exists r, 1 / 2 <= r <= 3 / 2 /\ q s = C r) -> valid q = true.
Variable HALF : bool.
Variable wallf : nat -> nat -> num -> num.
Variable z : R.
Hypothesis Hz : 9 / 10 <= z < 1.
Notation step := (split_step o ph (Dv bs nodes) dt dX valid (fun k => nth k nodes 0%R) w (end_values bs) 0 SIG LAMS LAMC EPS inv None (fun x => x) HALF).
Notation midf := (mid o ph (Dv bs nodes) dt dX valid).
Notation rb := (rb e inv SIG LAMS LAMC EPS z).
Notation chx := (chx ph e nodes bs w inv SIG LAMS LAMC EPS z).
Notation chy := (chy ph e nodes bs w inv SIG LAMS LAMC EPS z).
Notation blocks := (blocks e inv SIG LAMS LAMC EPS z).
Notation fl := (fl ph nodes bs w).

(** the half step leaves values at rest alone *)
Lemma mid_rest (r : nat -> vec) : (forall s, (s < 4)%nat -> exists x, 1 / 2 <= x <= 3 / 2 /\ r s = C x) ->
  exists q, (if HALF then midf 2%nat (map (fun s => Some (r s)) (seq 0 4)) else Ok (view (map (fun s => Some (r s)) (seq 0 4)))) = Ok (Some q) /\
    forall s k, (s < 4)%nat -> q s k = r s k.
Proof.
  intros Hr. set (l := map _ _).
  assert (Ev : exists wv, view l = Some wv /\ forall s, (s < 4)%nat -> wv s = r s).
  { eexists. split; [reflexivity|]. intros s Hs. do 4 (destruct s as [|s]; [reflexivity|]). lia. }
  destruct Ev as [wv [Ev Hw]]. destruct HALF; [|rewrite Ev; exists wv; split; [reflexivity|]; intros s k Hs; now rewrite Hw].
  unfold mid. rewrite Ev. rewrite Hval by (intros s Hs; rewrite Hw by exact Hs; apply Hr, Hs). cbn [bind].
  destruct (tables o nodes bs w HN HB) as [_ [TD _]]. change (N o) with 2%nat in TD.
  assert (AR : forall s, (s < 4)%nat -> at_rest ph p (wv s)).
  { intros s Hs. rewrite Hw by exact Hs. destruct (Hr s Hs) as (x & Bx & ->). apply HC, Bx. }
  unfold mid2. match goal with |- exists q, (r <- rows ?n ?f ;; _) = _ /\ _ => destruct (rows_ok n f (fun s k => wv s k)) as [m [E F]] end.
  { intros s Hs. change (N o * N o)%nat with 4%nat in Hs. cbv zeta. rewrite !(Bdot_ok o eq_refl) by lia. cbn [bind]. f_equal. apply functional_extensionality. intros k.
    rewrite !(bdot_rest o ph p) by (try (apply AR, Hs); lia).
    assert (Hs2 : (s / 2 < 2)%nat) by (apply Nat.div_lt_upper_bound; lia). pose proof (Nat.mod_upper_bound s 2 ltac:(lia)) as Hm2.
    assert (DZ : forall d, (d < 2)%nat -> derivs2d o (Dv bs nodes) (fun s0 => flux o ph (fun _ => 0) (wv s0) d) d s k = 0).
    { intros d Hd. unfold derivs2d. change (N o) with 2%nat. cbv zeta. destruct d as [|[|d]]; [| |lia].
      - rewrite (rsum_ext 2 _ (fun r0 => Dv bs nodes (s / 2) r0 * Fr p 0 k)); [rewrite rsum_scal_r; rewrite (TD (s / 2)%nat Hs2); ring|].
        intros j Hj. rewrite (flux_rest o ph p) by (try reflexivity; try lia; apply AR; lia). ring.
      - rewrite (rsum_ext 2 _ (fun r0 => Dv bs nodes (s mod 2) r0 * Fr p 1 k)); [rewrite rsum_scal_r; rewrite (TD (s mod 2)%nat Hm2); ring|].
        intros j Hj. rewrite (flux_rest o ph p) by (try reflexivity; try lia; apply AR; lia). ring. }
    rewrite (DZ 0%nat), (DZ 1%nat) by lia. unfold Rdiv. ring. }
  rewrite E. cbn [bind]. exists m. split; [reflexivity|]. intros s k Hs. rewrite F by exact Hs. now rewrite Hw.
Qed.

Lemma split_mass : dX 0%nat <> 0 -> dX 1%nat <> 0 -> exists ub u' x', boundaries num 2 wallf (u0 e z) ub0 [4; 3]%nat (fun _ => PERIODIC) = Ok ub /\
  step (u0 e z) ub mask0 [4; 3]%nat = Ok u' /\ holds 12 u' x' /\
  total2 4 3 (fun a b => x' (a * 3 + b)%nat) 0 = total2 4 3 (fun a b => C (rho0 z a b)) 0 + dt / dX 0%nat * chx + dt / dX 1%nat * chy.
Proof.
  intros D0 D1. assert (HR : runs o 0 dX) by (split; [reflexivity|]; split; [lia|]; split; assumption).
  pose proof HR as [HV [HF _]].
  destruct (boundaries_2d_correct num 2 wallf (u0 e z) ub0 4 3 (fun _ => PERIODIC) (fun i j => Some (C (rho0 z i j)))) as [ub [Eb [Lub _]]]; try lia.
  { unfold PERIODIC. lia. } { reflexivity. }
  { intros i j Hi Hj. cbn [u0 bdat]. do 4 f_equal; [apply (divmod 3 i j Hj)|apply (divmod 3 i j Hj)]. }
  { reflexivity. }
  destruct (periodic_2d num 2 wallf (u0 e z) ub0 ub 4 3 (fun _ => PERIODIC) (fun i j => Some (C (rho0 z i j)))) as [_ Wub]; try lia; try reflexivity.
  { intros i j Hi Hj. cbn [u0 bdat]. do 4 f_equal; [apply (divmod 3 i j Hj)|apply (divmod 3 i j Hj)]. }
  { exact Eb. }
  assert (W : whole (bmap (fun x => x) ub) (Uc e z)).
  { intros a Ha. cbn [bmap blen bdat] in *. rewrite Wub by exact Ha. rewrite Lub in Ha. cbn in Ha. unfold Uc. do 3 f_equal. apply wrapped. exact Ha. }
  destruct (weno2d 2 SIG LAMS LAMC EPS inv ltac:(lia) None true (bmap (fun x => x) ub) (Uc e z) 4 3 Lub W) as [whb [Ewh [Lwh Vwh]]].
  assert (CELL : forall c, (c < 30)%nat -> exists q, mcell (option nodal) view midf HALF 2 4 whb mask0 c = Ok (Some q) /\ forall s k, (s < 4)%nat -> q s k = rb (c / 5) (c mod 5) s k).
  { intros c Hc. assert (Hi : (c / 5 < 6)%nat) by (apply Nat.div_lt_upper_bound; lia). pose proof (Nat.mod_upper_bound c 5 ltac:(lia)) as Hj.
    unfold mcell. rewrite mask0_rd by exact Hc. cbn [bind].
    assert (RD : forall s, (s < 4)%nat -> rd whb (c * 4 + s) = Ok (Some (rb (c / 5) (c mod 5) s))).
    { intros s Hs. apply rd_ok; [rewrite Lwh; lia|].
      assert (Ei : (c * 4 + s = ((c / 5 * (3 + 2) + c mod 5) * 2 + s / 2) * 2 + s mod 2)%nat).
      { pose proof (Nat.div_mod c 5 ltac:(lia)). pose proof (Nat.div_mod s 2 ltac:(lia)). lia. }
      rewrite Ei, Vwh; [|exact Hi|exact Hj|apply Nat.div_lt_upper_bound; lia|apply Nat.mod_upper_bound; lia].
      cbn [post pre]. destruct (rb_ok e nodes bs w HN HB inv SIG LAMS LAMC EPS HW z Hz (c / 5) (c mod 5) s Hi Hj Hs) as [E _]. f_equal. exact E. }
    cbn [gather]. replace (c * 4)%nat with (c * 4 + 0)%nat by lia. rewrite <- !Nat.add_succ_r. rewrite !RD by lia. cbn [bind].
    destruct (oc c); cbn [andb]; [|eexists; split; [reflexivity|]; intros s k Hs; do 4 (destruct s as [|s]; [reflexivity|]); lia].
    apply (mid_rest (rb (c / 5) (c mod 5))). intros s Hs. apply (rb_ok e nodes bs w HN HB inv SIG LAMS LAMC EPS HW z Hz (c / 5) (c mod 5) s Hi Hj Hs). }
  destruct (midstepper_ok 2 ltac:(lia) (option nodal) view midf HALF 2 4 (balloc 30) whb mask0 (fun c => match mcell (option nodal) view midf HALF 2 4 whb mask0 c with Ok b => b | _ => None end)) as [rec [Er [Lr Vr]]].
  { rewrite mask0_len. cbn [balloc blen]. lia. }
  { intros c Hc. rewrite mask0_len in Hc. destruct (CELL c Hc) as [q [E _]]. rewrite E. reflexivity. }
  set (q := fun a : nat => match bdat rec a with Some (Some b) => b | _ => zblk end).
  assert (FIN : forall a, (a < 30)%nat -> bdat rec a = Some (Some (q a)) /\ forall s k, (s < 4)%nat -> q a s k = rb (a / 5) (a mod 5) s k).
  { intros a Ha. destruct (CELL a Ha) as [qc [E F]].
    assert (Ea : bdat rec a = Some (Some qc)) by (rewrite Vr by (rewrite mask0_len; exact Ha); rewrite E; reflexivity). unfold q. rewrite Ea. split; [reflexivity|exact F]. }
  set (v0 := mkbuf 12 (fun a => Some (C (rho0 z (a / 3) (a mod 3))))).
  assert (H1 : holds2 o false 4 3 v0 (strip rec) mask0 (fun a b => C (rho0 z a b)) (fun i j t => q (i * 5 + j)%nat) (off_corner 4 3)).
  { split; [reflexivity|]. split; [|split].
    - intros a b Ha Hb. cbn [v0 bdat]. do 3 f_equal; [apply (divmod 3 a b Hb)|apply (divmod 3 a b Hb)].
    - intros i j t Hi Hj Ht. cbn [nt_of] in *. assert (t = 0%nat) as -> by lia. change (3 + 2)%nat with 5%nat. rewrite Nat.mul_1_r, Nat.add_0_r. assert (B : (i * 5 + j < 30)%nat) by lia.
      apply rd_ok; cbn [strip blen bdat]; [rewrite Lr; exact B|]. destruct (FIN _ B) as [E _]. rewrite E. reflexivity.
    - intros i j Hi Hj. apply (full2_rd mask0_full2); assumption. }
  destruct (fv_conserves_2d o ph (fun k => nth k nodes 0%R) w (end_values bs) (Dv bs nodes) false false 0 dt dX 4 3 _ _ _ _ _ _ HR H1) as [u2 [x2 [E2 [L2 [V2 T2]]]]].
  destruct (relax_ok num (fun x => x) 12 (u0 e z) (fun a => Some (C (rho0 z (a / 3) (a mod 3)))) eq_refl (fun _ _ => eq_refl)) as [u4 [E4 [L4 V4]]].
  destruct (fv_is_split o ph (fun k => nth k nodes 0%R) w (end_values bs) (Dv bs nodes) 0 dt dX HF valid SIG LAMS LAMC EPS inv None (fun x => x) HALF
     v0 u4 ub mask0 [4; 3]%nat u2 whb rec q (u0 e z) (or_intror eq_refl)) as [w5 [U5 F5]].
  { exact Ewh. } { exact Er. } { intros a Ha. rewrite Lr in Ha. apply FIN. exact Ha. } { exact E4. }
  { split; [symmetry; exact L4|]. intros a x Ex. cbn [v0 bdat] in Ex.
    injection Ex as <-. exists (Some (C (rho0 z (a / 3) (a mod 3)))). split; [|reflexivity]. apply (relax_id num _ _ _ _ E4). reflexivity. }
  { exact E2. }
  set (x' := fun c => x2 (c / 3)%nat (c mod 3)%nat).
  assert (H5 : blen w5 = 12%nat /\ forall a, (a < 12)%nat -> bdat w5 a = Some (Some (x' a))).
  { destruct U5 as [RL RV]. split; [rewrite <- RL; exact L2|]. intros c Hc. assert (Ha : (c / 3 < 4)%nat) by (apply Nat.div_lt_upper_bound; lia). pose proof (Nat.mod_upper_bound c 3 ltac:(lia)) as Hb.
    destruct (RV c (x2 (c / 3)%nat (c mod 3)%nat)) as [y [Ey ->]]; [|exact Ey].
    rewrite (Nat.div_mod_eq c 3) at 1. rewrite (Nat.mul_comm 3). apply V2; assumption. }
  destruct H5 as [L5 V5]. destruct (relax_ok num (fun x => x) 12 w5 (fun a => Some (x' a)) L5 V5) as [w6 [E6 [L6 V6]]].
  exists ub, w6, x'. split; [exact Eb|]. split; [apply F5; exact E6|]. split; [split; [exact L6|exact V6]|].
  transitivity (total2 4 3 x2 0).
  { unfold total2. apply rsum_ext. intros a Ha. apply rsum_ext. intros b Hb. unfold x'. destruct (divmod 3 a b Hb) as [-> ->]. reflexivity. }
  rewrite (T2 0%nat ltac:(left; lia)). change (nt_of (N o) false) with 1%nat. assert (R1 : forall f, rsum 1 f = f 0%nat) by (intros; cbn; ring). rewrite !R1. clear R1.
  rewrite (rsum_zero 4 (fun a => rsum 3 (fun b => on _ (sources2 _ _ _ _ _ _)))).
  2:{ intros a Ha. apply rsum_zero. intros b Hb. rewrite off_x by lia. unfold on, sources2. apply rsum_zero. intros s Hs. apply rsum_zero. intros s' Hs'. unfold src. ring. }
  assert (QB : forall i j s k, (i < 6)%nat -> (j < 5)%nat -> (s < 4)%nat -> q (i * 5 + j)%nat s k = blocks i j s k).
  { intros i j s k Hi Hj Hs. assert (B : (i * 5 + j < 30)%nat) by lia. destruct (FIN _ B) as [_ F]. rewrite F by exact Hs.
    destruct (divmod 5 i j Hj) as [-> ->]. unfold CornerProof3.blocks. now rewrite Nat.mod_small. }
  match goal with |- context [(_ / dX 0%nat * ?X)%R] => replace X with chx end.
  2:{ unfold CornerProof3.chx. apply rsum_ext. intros b Hb. symmetry. rewrite !off_y by lia. cbn [andb on].
      match goal with |- ?x - ?y = ?x' - ?y' => assert (x = x') as -> by (apply fl_ext; intros s k Hs; apply QB; lia); assert (y = y') as -> by (apply fl_ext; intros s k Hs; apply QB; lia) end. reflexivity. }
  match goal with |- context [(_ / dX 1%nat * ?X)%R] => replace X with chy end.
  2:{ unfold CornerProof3.chy. apply rsum_ext. intros b Hb. symmetry. rewrite !off_x by lia. cbn [andb on].
      match goal with |- ?x - ?y = ?x' - ?y' => assert (x = x') as -> by (apply fl_ext; intros s k Hs; apply QB; lia); assert (y = y') as -> by (apply fl_ext; intros s k Hs; apply QB; lia) end. reflexivity. }
  unfold tw. field. split; assumption.
Qed.
End Leak.
