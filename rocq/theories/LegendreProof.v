(** Legendre polynomials: recurrences, derivatives, orthogonality, Christoffel-Darboux; correctness of the code. *)
From Coq Require Import Reals Lra Lia List.
From Coquelicot Require Import Coquelicot.
From Verif Require Import Base Sum PolyModel PolyProof LegendreModel LegendreSpec.
Import List ListNotations.
Open Scope R_scope.

Lemma legpair_snd n x : snd (legpair n x) = L (S n) x.
Proof. unfold L. cbn [legpair]. destruct (legpair n x). reflexivity. Qed.
Lemma L0 x : L 0 x = 1. Proof. reflexivity. Qed.
Lemma L1 x : L 1 x = x. Proof. reflexivity. Qed.
Lemma LSS n x : INR (n + 2) * L (S (S n)) x = INR (2 * n + 3) * x * L (S n) x - INR (n + 1) * L n x.
Proof.
  rewrite <- (legpair_snd (S n)). cbn [legpair]. rewrite <- (legpair_snd n). unfold L at 1.
  destruct (legpair n x) as [a b]. cbn [fst snd]. field. apply not_0_INR. lia.
Qed.
Lemma LSS' n x : L (S (S n)) x = (INR (2 * n + 3) * x * L (S n) x - INR (n + 1) * L n x) / INR (n + 2).
Proof. rewrite <- LSS. field. apply not_0_INR. lia. Qed.

(** the derivatives, by the differentiated recurrence *)
Fixpoint dpair (n : nat) (x : R) : R * R :=
  match n with
  | O => (0, 1)
  | S m => let '(a, b) := dpair m x in (b, (INR (2 * m + 3) * (L (S m) x + x * b) - INR (m + 1) * a) / INR (m + 2))
  end.
Definition D (n : nat) (x : R) : R := fst (dpair n x).
Lemma dpair_snd n x : snd (dpair n x) = D (S n) x.
Proof. unfold D. cbn [dpair]. destruct (dpair n x). reflexivity. Qed.
Lemma DSS' n x : D (S (S n)) x = (INR (2 * n + 3) * (L (S n) x + x * D (S n) x) - INR (n + 1) * D n x) / INR (n + 2).
Proof.
  rewrite <- (dpair_snd (S n)). cbn [dpair]. rewrite <- (dpair_snd n). unfold D.
  destruct (dpair n x) as [a b]. reflexivity.
Qed.

Lemma INR2 n : INR (n + 2) <> 0. Proof. apply not_0_INR. lia. Qed.
Lemma INR1 n : INR (n + 1) <> 0. Proof. apply not_0_INR. lia. Qed.

Lemma derive_L n : forall x, is_derive (L n) x (D n x) /\ is_derive (L (S n)) x (D (S n) x).
Proof.
  induction n as [|n IH]; intros x.
  - split; [apply (@is_derive_const R_AbsRing R_NormedModule 1 x)|apply (@is_derive_id R_AbsRing x)].
  - destruct (IH x) as [A B]. split; [exact B|].
    apply (is_derive_ext (fun x => (INR (2 * n + 3) * x * L (S n) x - INR (n + 1) * L n x) / INR (n + 2))).
    { intros t. now rewrite LSS'. }
    rewrite DSS'.
    assert (exA : ex_derive (L n) x) by (eexists; exact A). assert (exB : ex_derive (L (S n)) x) by (eexists; exact B).
    auto_derive; [repeat split; assumption|].
    change (fun x => L n x) with (L n). change (fun x => L (S n) x) with (L (S n)).
    rewrite (is_derive_unique _ _ _ A), (is_derive_unique _ _ _ B). replace (n + (n + 0) + 3)%nat with (2 * n + 3)%nat by lia. field. apply INR2.
Qed.
Lemma derive_L' n x : is_derive (L n) x (D n x). Proof. apply derive_L. Qed.

Ltac inr := rewrite ?plus_INR, ?mult_INR, ?plus_INR, ?mult_INR, ?S_INR in *; cbn [INR] in *.

Lemma D_AB n : forall x, x * D (S n) x - D n x = INR (n + 1) * L (S n) x /\ D (S n) x - x * D n x = INR (n + 1) * L n x.
Proof.
  induction n as [|n IH]; intros x.
  - unfold D, L. cbn. lra.
  - destruct (IH x) as [A B]. pose proof (pos_INR n).
    assert (B' : D (S (S n)) x - x * D (S n) x = INR (S n + 1) * L (S n) x).
    { rewrite DSS'. assert (Dn : D n x = x * D (S n) x - INR (n + 1) * L (S n) x) by lra. rewrite Dn. inr. field. lra. }
    split; [|exact B'].
    assert (E2 : D (S (S n)) x = x * D (S n) x + INR (S n + 1) * L (S n) x) by lra. rewrite E2.
    assert (E1 : x * D (S n) x = D n x + INR (n + 1) * L (S n) x) by lra.
    replace (x * (x * D (S n) x + INR (S n + 1) * L (S n) x)) with (x * (x * D (S n) x) + INR (S n + 1) * x * L (S n) x) by ring.
    rewrite E1. assert (E3 : x * D n x = D (S n) x - INR (n + 1) * L n x) by lra.
    replace (x * (D n x + INR (n + 1) * L (S n) x)) with (x * D n x + INR (n + 1) * x * L (S n) x) by ring. rewrite E3.
    pose proof (LSS n x) as R. inr. lra.
Qed.
Lemma D_step n x : D (S (S n)) x = D n x + INR (2 * n + 3) * L (S n) x.
Proof.
  destruct (D_AB n x) as [A _]. destruct (D_AB (S n) x) as [_ B]. inr. lra.
Qed.

(** ** legval *)
Lemma clen_step (m : nat) x : (1 <= m)%nat ->
  L (m + 1) x = INR (2 * (m + 1) - 1) / INR (m + 1) * x * L m x - INR (m + 1 - 1) / INR (m + 1) * L (m - 1) x.
Proof.
  intros H. destruct m as [|m]; [lia|]. replace (S m + 1)%nat with (S (S m)) by lia. rewrite LSS'.
  replace (2 * S (S m) - 1)%nat with (2 * m + 3)%nat by lia. replace (S (S m) - 1)%nat with (m + 1)%nat by lia.
  replace (S (S m)) with (m + 2)%nat by lia. replace (S m - 1)%nat with m by lia. field. apply INR2.
Qed.

(** the sum is carried by the pair: with [k] coefficients left, S = sum_{j<k} c_j L_j + a L_k + b L_{k+1} *)
Lemma clenshaw_inv c x S0 : forall k i nd c00 c11,
  (i + k = length c + 1)%nat -> nd = (k + 2)%nat ->
  rsum k (fun j => co c j * L j x) + c00 * L k x + c11 * L (k + 1) x = S0 ->
  let '(a, b) := clenshaw c x k i nd c00 c11 in a + b * x = S0.
Proof.
  induction k as [|k IH]; intros i nd c00 c11 Hi Hnd E; cbn [clenshaw].
  - cbn [rsum] in E. change (0 + 1)%nat with 1%nat in E. rewrite L0, L1 in E. lra.
  - apply IH; [lia|lia|]. subst nd.
    replace (length c - i)%nat with k by lia. replace (S k + 2 - 1)%nat with (k + 1 + 1)%nat by lia.
    rewrite <- E. cbn [rsum]. replace (S k + 1)%nat with (k + 1 + 1)%nat by lia. replace (S k) with (k + 1)%nat by lia.
    rewrite (clen_step (k + 1) x) by lia. replace (k + 1 - 1)%nat with k by lia. field. apply INR1.
Qed.

Lemma legval_ok c x : c <> [] -> legval x c = Ok (series c x).
Proof.
  intros H. destruct c as [|a [|b [|d c]]]; [congruence| | |].
  - cbn [legval]. unfold series, co. cbn [length rsum nth]. f_equal. rewrite L0. ring.
  - cbn [legval]. unfold series, co. cbn [length rsum nth]. f_equal. rewrite L0, L1. ring.
  - set (cs := a :: b :: d :: c). assert (Hl : (3 <= length cs)%nat) by (cbn; lia).
    change (legval x cs) with (
    let nc := length cs in
    let nd := (nc - 1)%nat in
    let c0 := (co cs (nc - 3) - co cs (nc - 1) * INR (nd - 1) / INR nd)%R in
    let c10 := (co cs (nc - 2) + co cs (nc - 1) * x * INR (2 * nd - 1) / INR nd)%R in
    if Nat.eqb nc 3 then Ok (c0 + c10 * x)%R
    else
      let nd := (nd - 1)%nat in
      let c00 := (co cs (nc - 4) - c10 * INR (nd - 1) / INR nd)%R in
      let c11 := (c0 + c10 * x * INR (2 * nd - 1) / INR nd)%R in
      let '(c00, c11) := clenshaw cs x (nc + 1 - 5) 5 nd c00 c11 in
      Ok (c00 + c11 * x)%R).
    cbv zeta. clearbody cs. clear a b d c H.
    assert (E3 : forall n, length cs = (n + 3)%nat -> series cs x = rsum n (fun j => co cs j * L j x) +
       (co cs n - co cs (n + 2) * INR (n + 1) / INR (n + 2)) * L n x +
       (co cs (n + 1) + co cs (n + 2) * x * INR (2 * (n + 2) - 1) / INR (n + 2)) * L (n + 1) x).
    { intros n Hn. unfold series. rewrite Hn. replace (n + 3)%nat with (S (S (S n))) by lia. cbn [rsum].
      replace (S (S n)) with (n + 1 + 1)%nat by lia. replace (S n) with (n + 1)%nat by lia.
      rewrite (clen_step (n + 1) x) by lia. replace (n + 1 - 1)%nat with n by lia.
      replace (n + 1 + 1 - 1)%nat with (n + 1)%nat by lia. replace (n + 1 + 1)%nat with (n + 2)%nat by lia.
      field. apply INR2. }
    destruct (Nat.eqb_spec (length cs) 3) as [E|E].
    + rewrite (E3 0%nat) by lia. rewrite E. cbn [rsum]. rewrite L0. change (0 + 1)%nat with 1%nat. rewrite L1.
      change (3 - 3)%nat with 0%nat. change (3 - 1)%nat with 2%nat. change (3 - 2)%nat with 1%nat. change (0 + 2)%nat with 2%nat.
      change (2 - 1)%nat with 1%nat. f_equal. ring.
    + destruct (length cs) as [|[|[|[|n]]]] eqn:El; try lia.
      specialize (E3 (S n) ltac:(lia)).
      pose proof (clenshaw_inv cs x (series cs x) n 5 (S (S (S (S n))) - 1 - 1)
        (co cs (S (S (S (S n))) - 4) - (co cs (S (S (S (S n))) - 2) + co cs (S (S (S (S n))) - 1) * x * INR (2 * (S (S (S (S n))) - 1) - 1) / INR (S (S (S (S n))) - 1)) * INR (S (S (S (S n))) - 1 - 1 - 1) / INR (S (S (S (S n))) - 1 - 1))
        (co cs (S (S (S (S n))) - 3) - co cs (S (S (S (S n))) - 1) * INR (S (S (S (S n))) - 1 - 1) / INR (S (S (S (S n))) - 1) + (co cs (S (S (S (S n))) - 2) + co cs (S (S (S (S n))) - 1) * x * INR (2 * (S (S (S (S n))) - 1) - 1) / INR (S (S (S (S n))) - 1)) * x * INR (2 * (S (S (S (S n))) - 1 - 1) - 1) / INR (S (S (S (S n))) - 1 - 1))
        ltac:(lia) ltac:(lia)) as K.
      replace (S (S (S (S n))) + 1 - 5)%nat with n by lia.
      destruct clenshaw as [p q]. f_equal. apply K. rewrite E3. clear.
      replace (S (S (S (S n))) - 4)%nat with n by lia. replace (S (S (S (S n))) - 3)%nat with (n + 1)%nat by lia.
      replace (S (S (S (S n))) - 2)%nat with (n + 2)%nat by lia. replace (S (S (S (S n))) - 1)%nat with (n + 3)%nat by lia.
      replace (n + 3 - 1)%nat with (n + 2)%nat by lia. replace (n + 2 - 1)%nat with (n + 1)%nat by lia.
      replace (S n + 2)%nat with (n + 3)%nat by lia. replace (S n + 1)%nat with (n + 1 + 1)%nat by lia. replace (S n) with (n + 1)%nat by lia.
      rewrite (clen_step (n + 1) x) by lia. replace (n + 1 - 1)%nat with n by lia. cbn [rsum].
      replace (rsum (n + 1) (fun j => co cs j * L j x)) with (rsum n (fun j => co cs j * L j x) + co cs n * L n x)
        by (replace (n + 1)%nat with (S n) by lia; reflexivity).
      replace (n + 1 + 1)%nat with (n + 2)%nat by lia. replace (n + 2 - 1)%nat with (n + 1)%nat by lia.
      field. split; apply not_0_INR; lia.
Qed.

(** ** legder *)
Lemma rsum_upd n (f g : nat -> R) k v : (k < n)%nat -> rsum n (fun i => upd f k v i * g i) = rsum n (fun i => f i * g i) + (v - f k) * g k.
Proof.
  intros H. rewrite (rsum_ext n _ (fun i => f i * g i + (if Nat.eqb i k then (v - f k) * g k else 0))).
  - rewrite rsum_plus. f_equal. rewrite (rsum_single n k _ H); [now rewrite Nat.eqb_refl|].
    intros i Hi N. apply Nat.eqb_neq in N. now rewrite N.
  - intros i Hi. unfold upd. destruct (Nat.eqb_spec i k) as [-> |N]; ring.
Qed.
Lemma legder_inv x : forall k c der n S0, (k + 2 <= n)%nat -> (forall j, (j < k + 2)%nat -> der j = 0) ->
  rsum (k + 3) (fun j => c j * D j x) + rsum n (fun j => der j * L j x) = S0 ->
  let '(c', der') := legder_loop k c der in
  rsum 3 (fun j => c' j * D j x) + rsum n (fun j => der' j * L j x) = S0 /\ der' 0%nat = 0 /\ der' 1%nat = 0.
Proof.
  induction k as [|k IH]; intros c der n S0 Hn Hz E; cbn [legder_loop].
  - split; [exact E|]. split; apply Hz; lia.
  - apply IH; [lia| |].
    + intros j Hj. rewrite upd_other by lia. apply Hz. lia.
    + replace (S k + 2 - 2)%nat with (k + 1)%nat by lia. replace (S k + 2 - 1)%nat with (k + 2)%nat by lia.
      replace (S k + 2)%nat with (k + 3)%nat in * by lia. rewrite !rsum_upd by lia.
      rewrite (Hz (k + 2)%nat) by lia. rewrite <- E. replace (S k + 3)%nat with (S (k + 3)) by lia. cbn [rsum].
      assert (Es : D (k + 3) x = D (k + 1) x + INR (2 * (k + 1) + 3) * L (S (k + 1)) x) by (replace (k + 3)%nat with (S (S (k + 1))) by lia; apply D_step). rewrite Es.
      replace (2 * (k + 3) - 1)%nat with (2 * (k + 1) + 3)%nat by lia. replace (S (k + 1)) with (k + 2)%nat by lia. ring.
Qed.

Lemma D0 x : D 0 x = 0. Proof. reflexivity. Qed.
Lemma D1 x : D 1 x = 1. Proof. reflexivity. Qed.
Lemma D2 x : D 2 x = 3 * x. Proof. rewrite (D_step 0). rewrite D0, L1. cbn. ring. Qed.

Lemma legder_ok c : (2 <= length c)%nat -> exists d, legder c = Ok d /\ length d = (length c - 1)%nat /\
  forall x, is_derive (series c) x (series d x).
Proof.
  intros H. unfold legder. destruct (Nat.leb_spec (length c) 1) as [Hl|_]; [lia|].
  destruct (legder_loop (length c - 1 - 2) (co c) (fun _ => 0)) as [cf der] eqn:El. eexists. split; [reflexivity|].
  split; [now rewrite map_length, seq_length|]. intros x.
  assert (Dc : is_derive (series c) x (rsum (length c) (fun k => co c k * D k x))).
  { unfold series. apply is_derive_rsum. intros i Hi. apply (is_derive_scal (L i) x (co c i) (D i x)). apply derive_L'. }
  replace (series (map (upd (if (1 <? length c - 1)%nat then upd der 1 (3 * cf 2%nat) else der) 0 (cf 1%nat)) (seq 0 (length c - 1))) x)
    with (rsum (length c) (fun k => co c k * D k x)); [exact Dc|].
  unfold series. rewrite map_length, seq_length.
  rewrite (rsum_ext (length c - 1) _ (fun k => upd (if (1 <? length c - 1)%nat then upd der 1 (3 * cf 2%nat) else der) 0 (cf 1%nat) k * L k x))
    by (intros i Hi; rewrite co_map_seq by exact Hi; reflexivity).
  destruct (Nat.ltb_spec 1 (length c - 1)) as [G|G].
  - pose proof (legder_inv x (length c - 1 - 2) (co c) (fun _ => 0) (length c - 1) (rsum (length c) (fun k => co c k * D k x))
      ltac:(lia) ltac:(reflexivity)) as I. rewrite El in I.
    destruct I as [E [Z0 Z1]].
    { replace (length c - 1 - 2 + 3)%nat with (length c) by lia. rewrite (rsum_zero (length c - 1)); [ring|]. intros; ring. }
    rewrite <- E. rewrite !rsum_upd by lia. rewrite upd_other by lia. rewrite Z0, Z1. cbn [rsum]. rewrite D0, D1, D2, L0, L1. ring.
  - assert (E2 : length c = 2%nat) by lia. rewrite E2 in *. cbn in El. injection El as <- <-. cbn [rsum Nat.sub].
    rewrite upd_same, D0, D1, L0. ring.
Qed.
Lemma legder_ub c : (length c < 2)%nat -> exists w, legder c = UB w.
Proof. intros H. unfold legder. destruct (Nat.leb_spec (length c) 1) as [Hl|Hl]; [eexists; reflexivity|lia]. Qed.

(** ** orthogonality *)
Lemma D_quad n x : (1 - x * x) * D (S n) x = INR (n + 1) * (L n x - x * L (S n) x).
Proof. destruct (D_AB n x) as [A B]. assert (D n x = x * D (S n) x - INR (n + 1) * L (S n) x) as E by lra. rewrite E in B. lra. Qed.
Lemma legendre_ode n x : is_derive (fun x => (1 - x * x) * D n x) x (- INR (n * (n + 1)) * L n x).
Proof.
  destruct n as [|n].
  - apply (is_derive_ext (fun _ => 0)); [intros t; rewrite D0; cbn; ring|].
    replace (- INR (0 * (0 + 1)) * L 0 x) with 0 by (cbn; ring). apply (@is_derive_const R_AbsRing R_NormedModule 0 x).
  - apply (is_derive_ext (fun x => INR (n + 1) * (L n x - x * L (S n) x))); [intros t; now rewrite D_quad|].
    assert (exA : ex_derive (L n) x) by (eexists; apply derive_L'). assert (exB : ex_derive (L (S n)) x) by (eexists; apply derive_L').
    auto_derive; [repeat split; assumption|].
    change (fun x => L n x) with (L n). change (fun x => L (S n) x) with (L (S n)).
    rewrite (is_derive_unique _ _ _ (derive_L' n x)), (is_derive_unique _ _ _ (derive_L' (S n) x)).
    destruct (D_AB n x) as [A _]. assert (E : D n x = x * D (S n) x - INR (n + 1) * L (S n) x) by lra. rewrite E.
    replace (S n * (S n + 1))%nat with ((n + 1) * (n + 2))%nat by lia. clear. inr. ring.
Qed.
Lemma legendre_poly n : exists p, length p = (n + 1)%nat /\ forall x, evaluate p x = L n x.
Proof.
  assert (G : (exists p, length p = (n + 1)%nat /\ forall x, evaluate p x = L n x) /\ (exists p, length p = (n + 2)%nat /\ forall x, evaluate p x = L (S n) x)); [|tauto].
  induction n as [|n [[p [Lp Ep]] [q [Lq Eq]]]].
  - split; [exists [1]|exists [0; 1]]; (split; [reflexivity|]); intros x; rewrite <- heval_eval; cbn [heval]; [rewrite L0|rewrite L1]; ring.
  - split; [exists q; split; [lia|exact Eq]|].
    exists (pdiv (padd (pscal (INR (2 * n + 3)) (0 :: q)) (pscal (- INR (n + 1)) p)) (INR (n + 2))). split.
    + rewrite pdiv_len, padd_len, !pscal_len. cbn [length]. lia.
    + intros x. rewrite pdiv_eval, padd_eval, !pscal_eval, Ep, LSS'. rewrite <- (heval_eval (0 :: q)). cbn [heval]. rewrite heval_eval, Eq.
      field. apply INR2.
Qed.
Lemma continuous_L n x : continuous (L n) x.
Proof. apply (ex_derive_continuous (L n)). eexists. apply derive_L'. Qed.
Lemma ex_derive_D n x : ex_derive (D n) x.
Proof.
  assert (G : ex_derive (D n) x /\ ex_derive (D (S n)) x); [|tauto].
  induction n as [|n [A B]]; [split; [apply (ex_derive_ext (fun _ => 0)); [reflexivity|auto_derive; auto]|apply (ex_derive_ext (fun _ => 1)); [reflexivity|auto_derive; auto]]|].
  split; [exact B|]. apply (ex_derive_ext (fun x => D n x + INR (2 * n + 3) * L (S n) x)); [intros t; now rewrite D_step|].
  assert (exB : ex_derive (L (S n)) x) by (eexists; apply derive_L'). auto_derive. repeat split; assumption.
Qed.

Lemma orthogonal i j : i <> j -> is_RInt (fun x => L i x * L j x) (-1) 1 0.
Proof.
  intros N. set (cc := INR (j * (j + 1)) - INR (i * (i + 1))).
  assert (Hc : cc <> 0). { unfold cc. intros E. assert (INR (j * (j + 1)) = INR (i * (i + 1))) as E' by lra. apply INR_eq in E'. apply N. nia. }
  pose (F x := ((1 - x * x) * D i x * L j x - (1 - x * x) * D j x * L i x) / cc).
  replace 0 with (minus (F 1) (F (-1))) by (unfold F, minus, plus, opp; cbn; field; exact Hc).
  apply (is_RInt_derive F).
  - intros x _. unfold F.
    pose proof (legendre_ode i x) as Oi. pose proof (legendre_ode j x) as Oj.
    assert (P : is_derive (fun x => (1 - x * x) * D i x * L j x) x (- INR (i * (i + 1)) * L i x * L j x + (1 - x * x) * D i x * D j x)).
    { pose proof (is_derive_mult (fun x => (1 - x * x) * D i x) (L j) x _ _ Oi (derive_L' j x) Rmult_comm) as P. exact P. }
    assert (Q : is_derive (fun x => (1 - x * x) * D j x * L i x) x (- INR (j * (j + 1)) * L j x * L i x + (1 - x * x) * D j x * D i x)).
    { pose proof (is_derive_mult (fun x => (1 - x * x) * D j x) (L i) x _ _ Oj (derive_L' i x) Rmult_comm) as Q. exact Q. }
    pose proof (is_derive_minus _ _ _ _ _ P Q) as M. pose proof (is_derive_scal _ x (/ cc) _ M) as SS.
    apply (is_derive_ext (fun x => / cc * minus ((1 - x * x) * D i x * L j x) ((1 - x * x) * D j x * L i x))).
    + intros t. unfold minus, plus, opp; cbn. field. exact Hc.
    + replace (L i x * L j x) with (/ cc * minus (- INR (i * (i + 1)) * L i x * L j x + (1 - x * x) * D i x * D j x) (- INR (j * (j + 1)) * L j x * L i x + (1 - x * x) * D j x * D i x)); [exact SS|].
      unfold minus, plus, opp; cbn. unfold cc in Hc |- *. field. exact Hc.
  - intros x _. apply (continuous_mult (L i) (L j)); apply continuous_L.
Qed.
