(** The finite volume update on cells and blocks that may be NaN does what it does on finite ones, as long as the result
    is finite. *)
From Coq Require Import Reals Lia.
From Verif Require Import Base Options Sum EqModel EqProof FvModel FvBody FvProof FvProof2 WenoModel AderModel.
Import List ListNotations.
Open Scope nat_scope.

(** ** two finite volume updates that correspond step by step *)
Section Sim.
Variables (T1 B1 T2 B2 : Type) (N : nat).
Variables (c1 : nat -> B1 -> res (list (T1 -> T1))) (f1 : nat -> nat -> B1 -> B1 -> res ((T1 -> T1) * (T1 -> T1))).
Variables (c2 : nat -> B2 -> res (list (T2 -> T2))) (f2 : nat -> nat -> B2 -> B2 -> res ((T2 -> T2) * (T2 -> T2))).
Variables (Rc : T1 -> T2 -> Prop) (J : B1 -> B2 -> Prop).
Definition Re (e1 : T1 -> T1) (e2 : T2 -> T2) : Prop := forall x y, Rc x y -> Rc (e1 x) (e2 y).
Definition Rl := Forall2 (fun (p : update T1) (q : update T2) => fst p = fst q /\ Re (snd p) (snd q)).
Hypothesis Hc : forall t b1 b2 l1, J b1 b2 -> c1 t b1 = Ok l1 -> exists l2, c2 t b2 = Ok l2 /\ Forall2 Re l1 l2.
Hypothesis Hf : forall d t a1 b1 a2 b2 e1 g1, d < 2 -> J a1 a2 -> J b1 b2 -> f1 d t a1 b1 = Ok (e1, g1) ->
  exists e2 g2, f2 d t a2 b2 = Ok (e2, g2) /\ Re e1 e2 /\ Re g1 g2.
Variables (r1 : buf B1) (r2 : buf B2) (mask : buf bool).

Lemma for_ops_sim : forall n lo F1 F2 L1, (forall i l1, lo <= i < lo + n -> F1 i = Ok l1 -> exists l2, F2 i = Ok l2 /\ Rl l1 l2) ->
  for_ops n lo F1 = Ok L1 -> exists L2, for_ops n lo F2 = Ok L2 /\ Rl L1 L2.
Proof using.
  induction n as [|n IH]; intros lo F1 F2 L1 H E; cbn [for_ops] in *.
  - injection E as <-. exists []. split; [reflexivity|constructor].
  - apply bind_ok in E. destruct E as [a [Ea E]]. apply bind_ok in E. destruct E as [b [Eb E]]. injection E as <-.
    destruct (H lo a ltac:(lia) Ea) as [a2 [Ea2 Ra]]. destruct (IH (S lo) F1 F2 b ltac:(intros i l1 Hi; apply H; lia) Eb) as [b2 [Eb2 Rb]]. rewrite Ea2. cbn [bind]. rewrite Eb2. cbn [bind].
    exists (a2 ++ b2). split; [reflexivity|]. apply Forall2_app; assumption.
Qed.

Lemma Rl_map c l1 l2 : Forall2 Re l1 l2 -> Rl (map (fun e => (c, e)) l1) (map (fun e => (c, e)) l2).
Proof using. intros H. induction H; cbn [map]; constructor; [split; [reflexivity|assumption]|assumption]. Qed.
Lemma Rl_if (b : bool) c e1 e2 : Re e1 e2 -> Rl (if b then [(c, e1)] else []) (if b then [(c, e2)] else []).
Proof using. intros H. destruct b; repeat constructor; assumption. Qed.

(** only the blocks of cells in the mask are looked at *)
Lemma fv_sim TIME nX l1 :
  (forall i t b1, t < nt_of N TIME -> rd mask i = Ok true -> rd r1 (i * nt_of N TIME + t) = Ok b1 -> exists b2, rd r2 (i * nt_of N TIME + t) = Ok b2 /\ J b1 b2) ->
  fv_updates T1 B1 N c1 f1 TIME r1 mask nX = Ok l1 ->
  exists l2, fv_updates T2 B2 N c2 f2 TIME r2 mask nX = Ok l2 /\ Rl l1 l2.
Proof using Hc Hf.
  intros Hr E. unfold fv_updates in *. destruct nX as [|nx [|ny [|z nX]]]; try (injection E as <-; exists []; split; [reflexivity|constructor]).
  - apply bind_ok in E. destruct E as [a [Ea E]]. apply bind_ok in E. destruct E as [b [Eb E]]. injection E as <-.
    assert (A : exists a2, centers1 T2 B2 N c2 TIME r2 mask nx = Ok a2 /\ Rl a a2).
    { unfold centers1 in *. eapply for_ops_sim; [|exact Ea]. intros t L Ht Et. unfold centers1_inner in *. eapply for_ops_sim; [|exact Et].
      intros i l _ Ei. cbv beta in Ei. unfold ind1, ind2 in *. apply bind_ok in Ei. destruct Ei as [m [Em Ei]]. rewrite Em. cbn [bind]. destruct m.
      - apply bind_ok in Ei. destruct Ei as [q [Eq Ei]]. apply bind_ok in Ei. destruct Ei as [l0 [El Ei]]. injection Ei as <-.
        destruct (Hr _ t _ (proj2 Ht) Em Eq) as [q2 [Eq2 Jq]]. destruct (Hc _ _ _ _ Jq El) as [l2 [El2 R2]]. rewrite Eq2. cbn [bind]. rewrite El2. cbn [bind].
        eexists. split; [reflexivity|]. apply Rl_map, R2.
      - injection Ei as <-. exists []. split; [reflexivity|constructor]. }
    assert (B : exists b2, interfs1 T2 B2 N f2 TIME r2 mask nx = Ok b2 /\ Rl b b2).
    { unfold interfs1 in *. eapply for_ops_sim; [|exact Eb]. intros t L Ht Et. unfold interfs1_inner in *. eapply for_ops_sim; [|exact Et].
      intros i l _ Ei. cbv beta in Ei. unfold ind1, ind2 in *. apply bind_ok in Ei. destruct Ei as [m [Em Ei]]. rewrite Em. cbn [bind]. destruct m; [|injection Ei as <-; exists []; split; [reflexivity|constructor]].
      apply bind_ok in Ei. destruct Ei as [m [Em1 Ei]]. rewrite Em1. cbn [bind]. destruct m; [|injection Ei as <-; exists []; split; [reflexivity|constructor]].
      apply bind_ok in Ei. destruct Ei as [ql [El Ei]]. apply bind_ok in Ei. destruct Ei as [qr [Er Ei]]. apply bind_ok in Ei. destruct Ei as [[e g] [Ef Ei]]. injection Ei as <-.
      destruct (Hr _ t _ (proj2 Ht) Em El) as [ql2 [El2 Jl]]. destruct (Hr _ t _ (proj2 Ht) Em1 Er) as [qr2 [Er2 Jr]]. destruct (Hf 0 _ _ _ _ _ _ _ ltac:(lia) Jl Jr Ef) as [e2 [g2 [Ef2 [Re1 Rg]]]].
      rewrite El2. cbn [bind]. rewrite Er2. cbn [bind]. rewrite Ef2. cbn [bind]. eexists. split; [reflexivity|]. apply Forall2_app; apply Rl_if; assumption. }
    destruct A as [a2 [-> Ra]]. destruct B as [b2 [-> Rb]]. cbn [bind]. eexists. split; [reflexivity|]. apply Forall2_app; assumption.
  - apply bind_ok in E. destruct E as [a [Ea E]]. apply bind_ok in E. destruct E as [b [Eb E]]. injection E as <-.
    assert (A : exists a2, centers2 T2 B2 N c2 TIME r2 mask nx ny = Ok a2 /\ Rl a a2).
    { unfold centers2 in *. eapply for_ops_sim; [|exact Ea]. intros t L Ht Et. unfold centers2_inner in *. eapply for_ops_sim; [|exact Et].
      intros i L1 _ Ei1. eapply for_ops_sim; [|exact Ei1]. clear L1 Ei1.
      intros j l _ Ei. cbv beta in Ei. unfold ind1, ind2 in *. apply bind_ok in Ei. destruct Ei as [m [Em Ei]]. rewrite Em. cbn [bind]. destruct m.
      - apply bind_ok in Ei. destruct Ei as [q [Eq Ei]]. apply bind_ok in Ei. destruct Ei as [l0 [El Ei]]. injection Ei as <-.
        destruct (Hr _ t _ (proj2 Ht) Em Eq) as [q2 [Eq2 Jq]]. destruct (Hc _ _ _ _ Jq El) as [l2 [El2 R2]]. rewrite Eq2. cbn [bind]. rewrite El2. cbn [bind].
        eexists. split; [reflexivity|]. apply Rl_map, R2.
      - injection Ei as <-. exists []. split; [reflexivity|constructor]. }
    assert (B : exists b2, interfs2 T2 B2 N f2 TIME r2 mask nx ny = Ok b2 /\ Rl b b2).
    { unfold interfs2 in *. eapply for_ops_sim; [|exact Eb]. intros t L Ht Et. unfold interfs2_inner in *. eapply for_ops_sim; [|exact Et].
      intros i L1 _ Ei1. eapply for_ops_sim; [|exact Ei1]. clear L1 Ei1.
      intros j l _ Ei. cbv beta in Ei. unfold ind1, ind2 in *. apply bind_ok in Ei. destruct Ei as [m [Em Ei]]. rewrite Em. cbn [bind]. destruct m; [|injection Ei as <-; exists []; split; [reflexivity|constructor]].
      apply bind_ok in Ei. destruct Ei as [mx [Emx Ei]]. rewrite Emx. cbn [bind].
      apply bind_ok in Ei. destruct Ei as [la [Ela Ei]]. apply bind_ok in Ei. destruct Ei as [my [Emy Ei]]. apply bind_ok in Ei. destruct Ei as [lb [Elb Ei]]. injection Ei as <-.
      assert (P : forall (cond : bool) d i0 i1 (G1 : (T1 -> T1) -> (T1 -> T1) -> list (update T1)) (G2 : (T2 -> T2) -> (T2 -> T2) -> list (update T2)) l0, d < 2 -> rd mask i0 = Ok true -> (cond = true -> rd mask i1 = Ok true) ->
         (forall e1 g1 e2 g2, Re e1 e2 -> Re g1 g2 -> Rl (G1 e1 g1) (G2 e2 g2)) ->
         (if cond then q0 <- rd r1 (i0 * nt_of N TIME + t) ;; q1 <- rd r1 (i1 * nt_of N TIME + t) ;; ' (el, er) <- f1 d t q0 q1 ;; Ok (G1 el er) else Ok []) = Ok l0 ->
         exists l2, (if cond then q0 <- rd r2 (i0 * nt_of N TIME + t) ;; q1 <- rd r2 (i1 * nt_of N TIME + t) ;; ' (el, er) <- f2 d t q0 q1 ;; Ok (G2 el er) else Ok []) = Ok l2 /\ Rl l0 l2).
      { intros cond d i0 i1 G1 G2 l0 Hd M0 M1 HG E0. destruct cond; [|injection E0 as <-; exists []; split; [reflexivity|constructor]].
        apply bind_ok in E0. destruct E0 as [ql [El E0]]. apply bind_ok in E0. destruct E0 as [qr [Er E0]]. apply bind_ok in E0. destruct E0 as [[e g] [Ef E0]]. injection E0 as <-.
        destruct (Hr _ t _ (proj2 Ht) M0 El) as [ql2 [El2 Jl]]. destruct (Hr _ t _ (proj2 Ht) (M1 eq_refl) Er) as [qr2 [Er2 Jr]]. destruct (Hf d _ _ _ _ _ _ _ Hd Jl Jr Ef) as [e2 [g2 [Ef2 [Re1 Rg]]]].
        rewrite El2. cbn [bind]. rewrite Er2. cbn [bind]. rewrite Ef2. cbn [bind]. eexists. split; [reflexivity|]. apply HG; assumption. }
      pose proof (P (mx && Nat.ltb 0 j)%bool 0 (i * (ny + 2) + j) ((i + 1) * (ny + 2) + j) (fun el er =>
         (if Nat.ltb 0 i then [((i - 1) * ny + (j - 1), el)] else []) ++ (if Nat.ltb i nx then [(i * ny + (j - 1), er)] else [])) (fun el er =>
         (if Nat.ltb 0 i then [((i - 1) * ny + (j - 1), el)] else []) ++ (if Nat.ltb i nx then [(i * ny + (j - 1), er)] else [])) la ltac:(lia) Em ltac:(intros HC; apply Bool.andb_true_iff in HC; destruct HC as [-> _]; exact Emx)
         ltac:(intros e1 g1 e2 g2 R1 R2; apply Forall2_app; apply Rl_if; eassumption)) as PA.
      pose proof (P (my && Nat.ltb 0 i)%bool 1 (i * (ny + 2) + j) (i * (ny + 2) + (j + 1)) (fun el er =>
         (if Nat.ltb 0 j then [((i - 1) * ny + (j - 1), el)] else []) ++ (if Nat.ltb j ny then [((i - 1) * ny + j, er)] else [])) (fun el er =>
         (if Nat.ltb 0 j then [((i - 1) * ny + (j - 1), el)] else []) ++ (if Nat.ltb j ny then [((i - 1) * ny + j, er)] else [])) lb ltac:(lia) Em ltac:(intros HC; apply Bool.andb_true_iff in HC; destruct HC as [-> _]; exact Emy)
         ltac:(intros e1 g1 e2 g2 R1 R2; apply Forall2_app; apply Rl_if; eassumption)) as PB.
      cbv beta zeta in PA, PB.
      assert (QA := PA Ela). destruct QA as [la2 [Ea2 Ra2]]. assert (QB := PB Elb). destruct QB as [lb2 [Eb2 Rb2]].
      match goal with |- exists l2, bind ?A _ = _ /\ _ => replace A with (Ok la2) by (symmetry; exact Ea2) end.
      cbn [bind]. rewrite Emy. cbn [bind].
      match goal with |- exists l2, bind ?A _ = _ /\ _ => replace A with (Ok lb2) by (symmetry; exact Eb2) end. cbn [bind]. eexists. split; [reflexivity|]. apply Forall2_app; assumption. }
    destruct A as [a2 [-> Ra]]. destruct B as [b2 [-> Rb]]. cbn [bind]. eexists. split; [reflexivity|]. apply Forall2_app; assumption.
Qed.

Definition Ru (u1 : buf T1) (u2 : buf T2) : Prop := blen u1 = blen u2 /\
  forall a x, bdat u1 a = Some x -> exists y, bdat u2 a = Some y /\ Rc x y.

Lemma fold_sim : forall l1 l2, Rl l1 l2 -> forall u1 u2 w1, Ru u1 u2 -> fold_res do_update l1 u1 = Ok w1 ->
  exists w2, fold_res do_update l2 u2 = Ok w2 /\ Ru w1 w2.
Proof using.
  intros l1 l2 H. induction H as [|[a e1] [b e2] l1 l2 [E R] H IH]; intros u1 u2 w1 U Ew; cbn [fold_res] in *.
  - injection Ew as <-. exists u2. split; [reflexivity|exact U].
  - cbn [fst snd] in E, R. subst b. apply bind_ok in Ew. destruct Ew as [v1 [Ev Ew]]. unfold do_update in Ev. cbn [fst snd] in Ev.
    apply bind_ok in Ev. destruct Ev as [x [Ex Ev]]. destruct U as [L U]. unfold rd in Ex. destruct (Nat.ltb_spec a (blen u1)) as [La|La]; [|discriminate].
    destruct (bdat u1 a) as [x0|] eqn:Ea; [|discriminate]. injection Ex as ->. destruct (U _ _ Ea) as [y [Ey Rxy]].
    unfold wr in Ev. rewrite (proj2 (Nat.ltb_lt _ _) La) in Ev. injection Ev as <-.
    unfold do_update at 1. cbn [fst snd]. unfold rd, wr. rewrite (proj2 (Nat.ltb_lt a (blen u2)) ltac:(lia)). rewrite Ey. cbn [bind].
    apply (IH _ _ _) with (2 := Ew). split; cbn [blen bdat]; [exact L|]. intros a' x' Ex'. unfold upd in *. destruct (Nat.eqb_spec a' a) as [->|Ne].
    + injection Ex' as <-. eexists. split; [reflexivity|]. apply R, Rxy.
    + apply U, Ex'.
Qed.
End Sim.
