(** What is needed for the refutation of C18 in 2-D with NO_CORNERS: the predictor leaves states at rest alone, and the
    reconstruction with two nodes in closed form. *)
From Coq Require Import Reals Lia Lra ZArith FunctionalExtensionality Psatz.
From Coquelicot Require Import Coquelicot.
From Verif Require Import Base Options Sum EqModel EqSpec EqProof FvModel FvBody PolyModel PolyProof WenoModel WenoProof WenoProof2 WenoProof3 WenoProps
  LegendreSpec DgModel DgSpec DgProof2 DgProof3 DgProps AderProof4.
Import List ListNotations.
Open Scope R_scope.

(** ** states at rest under a common pressure *)
Section Rest.
Variables (o : options) (ph : phys) (p : R).
Hypothesis HV : VISCOUS o = true.
Hypothesis HT : THERMAL o = false.
Hypothesis HM : MULTI o = false.
Definition at_rest (Q : vec) : Prop :=
  Q 2%nat = 0 /\ Q 3%nat = 0 /\ Q 4%nat = 0 /\ pressure ph Q = p /\ (forall d k, sigma ph Q d k = 0) /\ (forall k, source ph Q k = 0).
Definition Fr (d k : nat) : R := if Nat.eqb k (2 + d) then p else 0.
Lemma flux_rest z Q d k : at_rest Q -> (d < 2)%nat -> flux o ph z Q d k = z k + Fr d k.
Proof.
  intros (A & B & C & P & S & _) Hd. unfold flux. rewrite HV, HT, HM. unfold bump, upd, Fr. rewrite P, !S.
  assert (D : Q (2 + d)%nat = 0) by (destruct d as [|[|d]]; [exact A|exact B|lia]). rewrite D, A, B, C.
  destruct d as [|[|d]]; [| |lia]; do 17 (destruct k as [|k]; [cbn; unfold Rdiv; ring|]); cbn; unfold Rdiv; ring.
Qed.
Lemma bdot_rest Q x d k : at_rest Q -> (d < 2)%nat -> bdot o Q x d k = 0.
Proof.
  intros (A & B & C & _) Hd.
  assert (Z : forall i, (i < 3)%nat -> velocity Q i = 0) by (intros [|[|[|i]]] Hi; [change (Q 2%nat / Q 0%nat = 0); rewrite A|change (Q 3%nat / Q 0%nat = 0); rewrite B|change (Q 4%nat / Q 0%nat = 0); rewrite C|lia]; unfold Rdiv; ring).
  unfold bdot. destruct d as [|[|d]]; [| |lia]; cbv zeta; unfold B0dot, B1dot, level_sets; rewrite ?(Z 0%nat), ?(Z 1%nat), ?(Z 2%nat) by lia; do 14 (destruct k as [|k]; [cbn; unfold Rdiv; try ring; destruct (_ && _)%bool; ring|]); cbn; destruct (_ && _)%bool; unfold Rdiv; ring.
Qed.

Variables (nodes : list R) (bs : list poly) (w : nat -> R).
Hypothesis HN : length nodes = N o.
Hypothesis HB : dg_basis nodes bs w.
Variables (dt : R) (dX : nat -> R) (DG_IT : nat) (DG_TOL : R).
Variable solve : nat -> nodal -> nodal.
Variable nonlin_solve : (option nodal -> res (option nodal)) -> option nodal -> res (option nodal).
Variable valid : nodal -> bool.
Variable nan_far : option nodal -> option nodal -> bool.
Notation M := (Mof nodes bs w).
Notation Dd := (Dmat bs (fun k => nth k nodes 0%R) w).
Notation cellpred := (predictor_cell o ph w (end_values bs) (Dv bs nodes) Dd M dt dX DG_IT DG_TOL solve nonlin_solve valid nan_far false false).
Hypothesis HI : (1 <= DG_IT)%nat.
Hypothesis HTol : 0 <= DG_TOL.
Hypothesis HS : solver_of o nodes bs w solve 2.

(** the predictor of values at rest is these values at all times *)
Lemma pred_rest (r : nat -> vec) : (forall s, (s < N o * N o)%nat -> at_rest (r s)) ->
  (forall q, (forall s, (s < N o * N o * N o)%nat -> q s = r (s mod (N o * N o))%nat) -> valid q = true) ->
  exists q, cellpred 2 (map (fun s => Some (r s)) (seq 0 (N o * N o))) = Ok (Some (Some q)) /\
    forall s k, (s < N o * N o * N o)%nat -> q s k = r (s mod (N o * N o))%nat k.
Proof.
  intros Hr Hval. pose proof (N_pos o nodes bs w HN HB) as N1. destruct (tables o nodes bs w HN HB) as [TM [TD [TR _]]].
  set (l := map _ _). assert (Ev : exists wv, view l = Some wv /\ forall s, (s < N o * N o)%nat -> wv s = r s).
  { unfold view. replace (all_finite l) with true.
    - eexists. split; [reflexivity|]. intros s Hs. cbn beta. unfold l. rewrite (nth_indep _ None (Some (r 0%nat))) by (rewrite map_length, seq_length; exact Hs).
      rewrite (map_nth (fun s => Some (r s))). rewrite seq_nth by exact Hs. reflexivity.
    - symmetry. unfold all_finite. apply forallb_forall. intros x Hx. apply in_map_iff in Hx. destruct Hx as [s [<- _]]. reflexivity. }
  destruct Ev as [wv [Ev Hw]]. unfold predictor_cell. rewrite Ev. cbn [option_map bind].
  set (q0 := standard_initial_guess o 2 wv). set (Ww := initial_condition o w (end_values bs) 2 wv).
  assert (NN : (N o ^ 2 = N o * N o)%nat) by (cbn; lia). assert (NNN : (N o ^ (2 + 1) = N o * N o * N o)%nat) by (cbn; lia).
  assert (NZ : (N o * N o <> 0)%nat) by nia.
  assert (U0 : forall s, q0 s = r (s mod (N o * N o))%nat).
  { intros s. unfold q0, standard_initial_guess. rewrite NN. apply Hw, Nat.mod_upper_bound, NZ. }
  assert (R0 : forall s, at_rest (q0 s)) by (intros s; rewrite U0; apply Hr, Nat.mod_upper_bound, NZ).
  assert (RHS : exists m, rhs o ph w (Dv bs nodes) Dd dt dX 2 q0 Ww = Ok m /\ forall a k, (a < N o * N o * N o)%nat -> m a k = Ww a k).
  { cbn [rhs]. destruct (rhs2_ok o ph HV w (Dv bs nodes) Dd N1 dt (dX 0%nat) (dX 1%nat) q0 Ww) as [m [E F]]. exists m. split; [exact E|].
    intros a k Ha. rewrite F by exact Ha. cbv zeta. destruct (R0 a) as (_ & _ & _ & _ & _ & S). rewrite S. rewrite !bdot_rest by (try apply R0; lia).
    pose proof (Nat.mod_upper_bound a (N o) ltac:(lia)) as Hj. pose proof (Nat.mod_upper_bound (a / N o) (N o) ltac:(lia)) as Hi.
    rewrite (rsum_ext (N o) _ (fun j' => Dd (a / N o mod N o)%nat j' * (w (a / (N o * N o))%nat * (w (a mod N o) * Fr 0 k) / dX 0%nat))).
    2:{ intros j' Hj'. destruct (divmod (N o) (a / (N o * N o) * N o + j') (a mod N o) Hj) as [_ ->]. rewrite flux_rest by (try apply R0; lia). unfold Rdiv. ring. }
    rewrite rsum_scal_r, TR by exact Hi.
    rewrite (rsum_ext (N o) _ (fun m => Dd (a mod N o) m * Fr 1 k)) by (intros j' Hj'; rewrite flux_rest by (try apply R0; lia); ring).
    rewrite rsum_scal_r, TR by exact Hj. unfold Rdiv. ring. }
  destruct RHS as [m [Em Hm]]. destruct DG_IT as [|it]; [lia|]. cbn [picard lift]. rewrite Hval by (intros s _; apply U0). rewrite Em. cbn [bind].
  assert (S1 : forall a k, (a < N o * N o * N o)%nat -> solve 2%nat m a k = q0 a k).
  { intros a k Ha. apply (U2_inj o w M N1 (M_injective o nodes bs w HN HB) (weights_nonzero o nodes bs w HN HB) (solve 2%nat m) q0 k); [|exact Ha].
    intros c Hc. rewrite (solves_U2 o nodes bs w HN HB (solve 2%nat) HS m c k Hc), Hm by exact Hc. rewrite (U2_row o w M N1 q0 c k Hc). unfold Ww, initial_condition, initial_condition2. cbv zeta.
    pose proof (Nat.mod_upper_bound c (N o) ltac:(lia)) as Hj. pose proof (Nat.mod_upper_bound (c / N o) (N o) ltac:(lia)) as Hi.
    rewrite (rsum_ext (N o) _ (fun m => M (c / (N o * N o))%nat m * (w (c / N o mod N o)%nat * w (c mod N o)%nat * wv (c / N o mod N o * N o + c mod N o)%nat k))).
    - rewrite rsum_scal_r, TM by (apply Nat.div_lt_upper_bound; lia). ring.
    - intros t Ht. rewrite U0. rewrite Hw by (apply pack_lt; assumption).
      replace (((t * N o + c / N o mod N o) * N o + c mod N o) mod (N o * N o))%nat with (c / N o mod N o * N o + c mod N o)%nat; [ring|].
      replace ((t * N o + c / N o mod N o) * N o + c mod N o)%nat with (t * (N o * N o) + (c / N o mod N o * N o + c mod N o))%nat by ring.
      symmetry. apply (divmod (N o * N o) t). apply pack_lt; assumption. }
  rewrite (far_same o nodes HN DG_TOL nan_far (N o ^ (2 + 1))); [|exact HTol|rewrite NNN; intros a k Ha; apply S1, Ha].
  exists (solve 2%nat m). split; [reflexivity|]. intros s k Hs. rewrite S1 by exact Hs. now rewrite U0.
Qed.
End Rest.

(** ** two nodes *)
Section Two.
Variables (nodes : list R) (bs : list poly) (w : nat -> R).
Hypothesis HN : length nodes = 2%nat.
Notation xi s := (nth s nodes 0).

(** the nodes of the Gauss rule are symmetric about 1/2, and its weights are 1/2 *)
Lemma two_nodes : dg_basis nodes bs w -> exists h, h * h = 1 / 12 /\ xi 0 = 1 / 2 - h /\ xi 1 = 1 / 2 + h /\ w 0%nat = 1 / 2 /\ w 1%nat = 1 / 2.
Proof.
  intros (Dn & _ & _ & EX).
  assert (Q : forall p, (length p <= 4)%nat -> evaluate (integrate p) 1 - evaluate (integrate p) 0 = w 0%nat * evaluate p (xi 0) + w 1%nat * evaluate p (xi 1)).
  { intros p Lp. assert (H := EX p ltac:(rewrite HN; exact Lp)). rewrite HN in H. unfold quad in H. cbn [rsum] in H.
    assert (H2 := rint_eval_comb 1 (fun _ => 1) (fun _ => p) 0 1). cbn [rsum] in H2.
    assert (H3 : is_RInt (evaluate p) 0 1 (0 + 1 * (evaluate (integrate p) 1 - evaluate (integrate p) 0))).
    { eapply (@is_RInt_ext R_NormedModule); [|exact H2]. intros x _. cbn beta. match goal with |- ?a = ?b => change (@eq R a b) end. ring. }
    assert (E := rint_unique _ _ _ _ _ H3 H). lra. }
  assert (Q0 := Q [1] ltac:(cbn; lia)). assert (Q1 := Q [0; 1] ltac:(cbn; lia)). assert (Q2 := Q [0; 0; 1] ltac:(cbn; lia)). assert (Q3 := Q [0; 0; 0; 1] ltac:(cbn; lia)).
  unfold integrate, co in Q0, Q1, Q2, Q3. cbn in Q0, Q1, Q2, Q3.
  assert (NE : xi 0 <> xi 1) by (intro E; assert (C := Dn 0%nat 1%nat ltac:(lia) ltac:(lia) E); discriminate).
  set (a := nth 0 nodes 0) in *. set (b := nth 1 nodes 0) in *. set (u := w 0%nat) in *. set (v := w 1%nat) in *.
  assert (E0 : u + v = 1) by lra. assert (E1 : u * a + v * b = 1 / 2) by lra. assert (E2 : u * (a * a) + v * (b * b) = 1 / 3) by lra.
  assert (E3 : u * (a * a * a) + v * (b * b * b) = 1 / 4) by lra. clear Q0 Q1 Q2 Q3.
  assert (F1 : 1 / 3 - (a + b) / 2 + a * b = 0) by (rewrite <- E2; replace ((a + b) / 2) with ((a + b) * (u * a + v * b)) by (rewrite E1; field); replace (a * b) with (a * b * (u + v)) by (rewrite E0; ring); ring).
  assert (F2 : 1 / 4 - (a + b) / 3 + a * b / 2 = 0) by (rewrite <- E3; replace ((a + b) / 3) with ((a + b) * (u * (a * a) + v * (b * b))) by (rewrite E2; field); replace (a * b / 2) with (a * b * (u * a + v * b)) by (rewrite E1; field); ring).
  assert (S1 : a + b = 1) by lra. assert (P1 : a * b = 1 / 6) by lra. exists (b - 1 / 2).
  assert (U : u = 1 / 2). { apply (Rmult_eq_reg_r (a - b)); [|lra]. replace (u * (a - b)) with (u * a + v * b - (u + v) * b) by ring. rewrite E0, E1. lra. }
  repeat split; try lra. replace a with (1 - b) in P1 by lra. lra.
Qed.

Variables (inv : stencil -> (nat -> R) -> nat -> R) (SIG : nat -> nat -> R) (LAMS LAMC EPS : R).
Hypothesis HW : weno_setup nodes bs inv SIG LAMS LAMC EPS.

Lemma wcol_two data s v j : (j < 2)%nat -> s = sL \/ s = sR ->
  wcol 2 inv data s v j = data 1%nat v + (match s with sL => data 1%nat v - data 0%nat v | _ => data 2%nat v - data 1%nat v end) * (xi j - 1 / 2).
Proof.
  intros Hj Hs. pose proof HW as (Dn & Bn & N1 & SV & _). set (b := match s with sL => data 1%nat v - data 0%nat v | _ => data 2%nat v - data 1%nat v end).
  set (data' := fun (k _ : nat) => data 1%nat v + b * (INR k - 1)).
  assert (E : forall j, (j < length nodes)%nat -> wcol (length nodes) inv data s v j = wcol (length nodes) inv data' s v j).
  { apply (M_cancel nodes bs Dn Bn N1 s). intros i Hi. unfold wcol. rewrite !SV by exact Hi. rewrite HN in *. unfold data', b.
    destruct Hs as [-> | ->]; unfold off, FN2, CN2; destruct i as [|[|i]]; [| |lia| | |lia]; cbn; ring. }
  rewrite HN in E. rewrite E by exact Hj.
  assert (H := wcol_exact nodes bs Dn Bn N1 inv SV data' [data 1%nat v - b / 2; b] v s ltac:(rewrite HN; cbn; lia)). rewrite HN in H. rewrite H.
  - cbn. field.
  - intros k Hk. assert (H2 := rint_eval_comb 1 (fun _ => 1) (fun _ => [data 1%nat v - b / 2; b]) (INR k - INR (2 - 1)) (INR k - INR (2 - 1) + 1)). cbn [rsum] in H2.
    match type of H2 with is_RInt _ _ _ ?X => replace (data' k v) with X end.
    + eapply (@is_RInt_ext R_NormedModule); [|exact H2]. intros x _. cbn beta. match goal with |- ?a = ?b => change (@eq R a b) end. ring.
    + unfold data', integrate, co. cbn. match goal with |- ?a = ?b => change (@eq R a b) end. field.
  - exact Hj.
Qed.

Notation comb := (WenoModel.combine 2 SIG LAMS LAMC EPS inv).
Definition two_sel (sel : list stencil) : Prop := sel = [sL] \/ sel = [sR] \/ sel = [sL; sR].
(** the reconstruction is linear, with a slope between the two one-sided slopes *)
Lemma comb_two data sel v : two_sel sel -> exists th, 0 <= th <= 1 /\ (sel = [sL] -> th = 1) /\ (sel = [sR] -> th = 0) /\ (sel = [sL; sR] -> 0 < th < 1) /\
  forall j, (j < 2)%nat -> comb data sel j v = data 1%nat v + (th * (data 1%nat v - data 0%nat v) + (1 - th) * (data 2%nat v - data 1%nat v)) * (xi j - 1 / 2).
Proof.
  intros Hs. pose proof HW as (Dn & Bn & N1 & SV & LS & LC & EP & PS).
  assert (QP : forall w : nat -> R, rsum (length nodes) (fun i => rsum (length nodes) (fun j => w i * SIG i j * w j)) + EPS <> 0) by (intros w0; specialize (PS w0); lra).
  set (om := omega nodes inv SIG LAMS LAMC EPS data sel v).
  assert (NS : sel <> []) by (destruct Hs as [-> | [-> | ->]]; discriminate).
  assert (OP : forall s, 0 < om s) by (intros s; apply (omega_pos nodes inv SIG LAMS LAMC EPS (conj LS LC) QP data sel v s NS)).
  assert (OS := omega_sum nodes inv SIG LAMS LAMC EPS (conj LS LC) QP data sel v NS). fold om in OS.
  assert (CO : forall j, comb data sel j v = lsum (fun s => om s * wcol 2 inv data s v j) sel).
  { intros j. assert (C := combine_omega nodes inv SIG LAMS LAMC EPS data sel j v). rewrite HN in C. exact C. }
  clearbody om. destruct Hs as [-> | [-> | ->]]; cbn [lsum] in *.
  - exists 1. repeat split; try lra; try discriminate. intros j Hj. rewrite CO, wcol_two by auto. cbn. replace (om sL) with 1 by lra. ring.
  - exists 0. repeat split; try lra; try discriminate. intros j Hj. rewrite CO, wcol_two by auto. cbn. replace (om sR) with 1 by lra. ring.
  - assert (PL := OP sL). assert (PR := OP sR). exists (om sL). repeat split; try lra; try discriminate. intros j Hj. rewrite CO, !wcol_two by auto. cbn.
    replace (om sR) with (1 - om sL) by lra. ring.
Qed.
End Two.
