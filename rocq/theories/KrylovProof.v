(** Proofs about the line search. *)
From Coq Require Import Reals Lra Psatz Lia FunctionalExtensionality.
From Verif Require Import Base Sum KrylovModel.
Import List ListNotations.
Open Scope R_scope.

Lemma vdot_nonneg n a : 0 <= vdot n a a.
Proof. unfold vdot. apply rsum_nonneg. intros i _. apply Rle_0_sqr. Qed.

(** the trial step of the cubic interpolation, for function values relative to the first one *)
Lemma trial_core al p q : / 100 < al <= 5001 / 10000 -> 9997 / 10000 < p -> 9997 / 10000 < q ->
  let f := al * al * (al - 1) in
  let a := (q - 1 + al - al * al * p) / f in let b := (- (q - 1 + al) + al * al * al * p) / f in
  (a = 0 -> 0 < b) /\ (a <> 0 -> 0 < (- b + sqrt (Rabs (b * b + 3 * a))) / (3 * a) < 3).
Proof.
  intros HA HP HQ f a b. assert (F : f < 0) by (unfold f; assert (0 < al * al) by nra; nra).
  assert (AB : a + b = p) by (unfold a, b; unfold f in *; field; split; lra). split; [lra|]. intros A0.
  set (D := q - 1 + al) in *. assert (DL : al - 3 / 10000 < D) by (unfold D; lra).
  assert (BG : a < 0 -> 3 / 2 < b).
  { intros AN. assert (N1 : al * al * p < D). { destruct (Rlt_dec (al * al * p) D) as [L|L]; [exact L|]. exfalso. assert (0 <= a); [|lra]. unfold a. replace ((D - al * al * p) / f) with ((al * al * p - D) / (- f)) by (field; lra). apply Rle_mult_inv_pos; lra. }
    assert (BE : b * f = - D + al * al * al * p) by (unfold b; field; lra).
    assert (al * (al * al * p) < al * D) by (apply Rmult_lt_compat_l; lra). assert (BF : b * f < - D * (1 - al)) by nra.
    assert (3 / 2 * (al * al) < D) by nra. assert (3 / 2 * (al * al) * (1 - al) < D * (1 - al)) by (apply Rmult_lt_compat_r; lra). assert (FE : f = - (al * al * (1 - al))) by (unfold f; ring).
    apply Rmult_lt_reg_r with (- f); [lra|]. rewrite FE in BF |- *. lra. }
  assert (DP : 0 < b * b + 3 * a). { destruct (Rlt_dec a 0) as [L|L]; [|assert (0 < a) by lra; assert (0 <= b * b) by apply Rle_0_sqr; lra]. replace a with (p - b) by lra. assert (0 <= (b - 3 / 2) * (b - 3 / 2)) by apply Rle_0_sqr. lra. }
  rewrite Rabs_pos_eq by lra. set (s := sqrt (b * b + 3 * a)). assert (SP : 0 < s) by (apply sqrt_lt_R0, DP). assert (SS : s * s = b * b + 3 * a) by (apply sqrt_sqrt; lra).
  assert (BS : / 3 < b + s).
  { destruct (Rlt_dec a 0) as [L|L]; [specialize (BG L); lra|]. destruct (Rle_dec (/ 3) b); [lra|]. assert (/ 3 - b < s); [|lra]. assert (0 < / 3 - b) by lra.
    assert ((/ 3 - b) * (/ 3 - b) < s * s) by (rewrite SS; replace a with (p - b) by lra; lra). nra. }
  assert (E3 : 3 * a = (s - b) * (s + b)) by (replace ((s - b) * (s + b)) with (s * s - b * b) by ring; rewrite SS; ring).
  assert (SB : s - b <> 0) by (intros Z; rewrite Z in E3; lra). replace ((- b + s) / (3 * a)) with (/ (b + s)) by (rewrite E3; field; split; lra).
  split; [apply Rinv_0_lt_compat; lra|]. rewrite <- (Rinv_inv 3). apply Rinv_lt_contravar; [|exact BS]. apply Rmult_lt_0_compat; lra.
Qed.
(** the same for the values themselves *)
Lemma trial al f0 fa fb : / 100 < al <= 5001 / 10000 -> 0 < f0 -> 9997 / 10000 * f0 < fa -> 9997 / 10000 * f0 < fb ->
  let f := al * al * (al - 1) in
  let a := (fb - f0 + f0 * al - al * al * fa) / f in let b := (- (fb - f0 + f0 * al) + al * al * al * fa) / f in
  f <> 0 /\ (a = 0 -> 0 < b) /\ (a <> 0 -> 0 < (- b + sqrt (Rabs (b * b + 3 * a * f0))) / (3 * a) < 3).
Proof.
  intros HA H0 HFA HFB f a b. assert (F : f < 0) by (unfold f; assert (0 < al * al) by nra; nra). split; [lra|].
  assert (P : 9997 / 10000 < fa / f0) by (apply Rmult_lt_reg_r with f0; [exact H0|]; unfold Rdiv at 2; rewrite Rmult_assoc, Rinv_l by lra; lra).
  assert (Q : 9997 / 10000 < fb / f0) by (apply Rmult_lt_reg_r with f0; [exact H0|]; unfold Rdiv at 2; rewrite Rmult_assoc, Rinv_l by lra; lra).
  destruct (trial_core al (fa / f0) (fb / f0) HA P Q) as [T1 T2]. fold f in T1, T2. set (a' := (fb / f0 - 1 + al - al * al * (fa / f0)) / f) in *. set (b' := (- (fb / f0 - 1 + al) + al * al * al * (fa / f0)) / f) in *.
  assert (EA : a = f0 * a') by (unfold a, a'; field; lra). assert (EB : b = f0 * b') by (unfold b, b'; field; lra). split.
  - intros A0. assert (a' = 0) by (rewrite EA in A0; apply Rmult_integral in A0; destruct A0; lra). specialize (T1 H). rewrite EB. apply Rmult_lt_0_compat; lra.
  - intros A0. assert (NA : a' <> 0) by (intros E; apply A0; rewrite EA, E; ring). specialize (T2 NA).
    replace (b * b + 3 * a * f0) with (f0 * f0 * (b' * b' + 3 * a')) by (rewrite EA, EB; ring). rewrite Rabs_mult, (Rabs_pos_eq (f0 * f0)) by nra. rewrite sqrt_mult by (try apply Rabs_pos; nra). rewrite sqrt_square by lra.
    replace ((- b + f0 * sqrt (Rabs (b' * b' + 3 * a'))) / (3 * a)) with ((- b' + sqrt (Rabs (b' * b' + 3 * a'))) / (3 * a')); [exact T2|]. rewrite EA, EB. field. split; [exact NA|lra].
Qed.

Section Search.
Variable n : nat.
Variable F : dv -> dv.
Variables x dx : dv.
Definition at_step (s : R) : dv := vadd x (vscal s dx).
Definition value (s : R) : R := vdot n (F (at_step s)) (F (at_step s)).
Definition cache_ok (c : cache) : Prop := match tmp_s c with Some t => tmp_Fx c = F (at_step t) /\ tmp_phi c = value t | None => True end.
Lemma phi_ok s c : cache_ok c -> exists c', phi n F x dx s c = (value s, c') /\ cache_ok c' /\ tmp_s c' = Some s /\ (evals c' <= S (evals c))%nat.
Proof.
  intros H. unfold phi, cache_ok in *. destruct (tmp_s c) as [t|] eqn:E.
  - destruct (Req_EM_T s t) as [->|].
    + exists c. rewrite E. destruct H as [H1 H2]. split; [rewrite H2; reflexivity|]. split; [auto|]. split; [reflexivity|lia].
    + eexists. split; [reflexivity|]. cbn. repeat split. lia.
  - eexists. split; [reflexivity|]. cbn. repeat split. lia.
Qed.
(** what a search returns *)
Definition good (phi0 : R) (s : R) (c : cache) : Prop := cache_ok c /\ (s = 1 \/ (0 < s < 3 /\ value s <= phi0 - c1 * s * phi0)).
Lemma loop_ok phi0 : 0 < phi0 -> forall fuel k al fa fb c, (k <= fuel)%nat -> 0 < al <= 5001 / 10000 -> al <= amin * 2 ^ k -> 9997 / 10000 * phi0 < fa -> 9997 / 10000 * phi0 < fb -> cache_ok c ->
  exists s c', armijo_loop n F fuel x dx phi0 al fa fb c = Ok (s, c') /\ good phi0 s c' /\ (evals c' <= evals c + k)%nat.
Proof.
  intros P0. induction fuel as [|fuel IH]; intros k al fa fb c HK HA HAK HFA HFB HC; cbn [armijo_loop].
  - destruct (Rlt_dec amin al) as [L|L]; [exfalso; replace k with 0%nat in HAK by lia; cbn in HAK; lra|]. exists 1, c. split; [reflexivity|]. split; [split; [exact HC|left; reflexivity]|lia].
  - destruct (Rlt_dec amin al) as [L|L]; [|exists 1, c; split; [reflexivity|]; split; [split; [exact HC|left; reflexivity]|lia]].
    destruct k as [|k]; [exfalso; cbn in HAK; lra|].
    destruct (trial al phi0 fa fb ltac:(unfold amin in L; lra) P0 HFA HFB) as [T0 [T1 T2]]. destruct (Req_EM_T _ 0) as [E|_]; [contradiction|].
    set (a := (fb - phi0 + phi0 * al - al * al * fa) / (al * al * (al - 1))) in *. set (b := (- (fb - phi0 + phi0 * al) + al * al * al * fa) / (al * al * (al - 1))) in *.
    destruct (Req_EM_T a 0) as [A0|A0].
    + specialize (T1 A0). destruct (Rlt_dec b 0); [lra|]. eexists 1, _. split; [reflexivity|]. split; [split; [exact I|left; reflexivity]|cbn; lia].
    + specialize (T2 A0). set (al2 := (- b + sqrt (Rabs (b * b + 3 * a * phi0))) / (3 * a)) in *. destruct (phi_ok al2 c HC) as [c' [-> [HC' [_ HE]]]].
      destruct (Rle_dec (value al2) (phi0 - c1 * al2 * phi0)) as [D|D].
      * exists al2, c'. split; [reflexivity|]. split; [split; [exact HC'|right; split; [exact T2|exact D]]|lia].
      * assert (E2 : (if Rlt_dec (al / 2) (al - al2) then al / 2 else if Rlt_dec (1 - al2 / al) (96 / 100) then al / 2 else al2) = al / 2).
        { destruct (Rlt_dec (al / 2) (al - al2)); [reflexivity|]. destruct (Rlt_dec (1 - al2 / al) (96 / 100)) as [|N]; [reflexivity|]. exfalso. apply N. assert (/ 2 <= al2 / al); [|lra]. apply Rmult_le_reg_r with al; [lra|]. unfold Rdiv. rewrite Rmult_assoc, Rinv_l by lra. lra. }
        rewrite E2. destruct (IH k (al / 2) fb (value al2) c') as [s [c'' [EQ [G EV]]]]; [lia|lra|cbn [pow] in HAK; lra|exact HFB| |exact HC'|].
        -- unfold c1 in D. assert (/ 10000 * al2 * phi0 < 3 / 10000 * phi0) by (apply Rmult_lt_compat_r; lra). lra.
        -- exists s, c''. split; [exact EQ|]. split; [exact G|lia].
Qed.
Lemma search_ok fuel phi0 c : (6 <= fuel)%nat -> phi0 = value 0 -> cache_ok c ->
  exists s c', scalar_search_armijo n F fuel x dx phi0 c = Ok (s, c') /\ cache_ok c' /\ (s = 1 \/ (0 <= s < 3 /\ value s <= phi0 - c1 * s * phi0)) /\ (0 < phi0 -> 0 < s) /\ (evals c' <= evals c + 8)%nat.
Proof.
  intros HF P0 HC. unfold scalar_search_armijo. destruct (phi_ok 1 c HC) as [ca [-> [HCa [_ HE]]]].
  assert (N0 : 0 <= phi0) by (rewrite P0; apply vdot_nonneg).
  destruct (Rle_dec (value 1) (phi0 - c1 * phi0)) as [D|D]; [exists 1, ca; split; [reflexivity|]; split; [exact HCa|]; split; [left; reflexivity|]; split; [lra|lia]|].
  unfold c1 in D. assert (V1 : 0 <= value 1) by apply vdot_nonneg.
  destruct (Req_EM_T (2 * value 1) 0) as [Z|NZ]; [exfalso; apply D; lra|]. assert (V1p : 0 < value 1) by lra. set (al := phi0 / (2 * value 1)).
  destruct (phi_ok al ca HCa) as [cb [-> [HCb [_ HEb]]]].
  destruct N0 as [N0|N0].
  - assert (AL : 0 < al) by (apply Rdiv_lt_0_compat; lra).
    assert (AU : al <= 5001 / 10000). { unfold al. apply Rmult_le_reg_r with (2 * value 1); [lra|]. unfold Rdiv at 1. rewrite Rmult_assoc, Rinv_l by lra. lra. }
    destruct (Rle_dec (value al) (phi0 - c1 * al * phi0)) as [D2|D2].
    + exists al, cb. split; [reflexivity|]. split; [exact HCb|]. split; [right; split; [lra|exact D2]|]. split; [lra|lia].
    + destruct (loop_ok phi0 N0 fuel 6 al (value 1) (value al) cb HF ltac:(lra) ltac:(unfold amin; cbn [pow]; lra) ltac:(lra)) as [s [c' [EQ [[G1 G2] EV]]]].
      * unfold c1 in D2. assert (/ 10000 * al * phi0 < 3 / 10000 * phi0) by (apply Rmult_lt_compat_r; lra). lra.
      * exact HCb.
      * exists s, c'. split; [exact EQ|]. split; [exact G1|]. split; [destruct G2 as [G2|[G2 G3]]; [left; exact G2|right; split; [lra|exact G3]]|]. split; [destruct G2; lra|lia].
  - assert (A0 : al = 0) by (unfold al; rewrite <- N0; unfold Rdiv; ring). rewrite A0. destruct (Rle_dec (value 0) (phi0 - c1 * 0 * phi0)) as [D2|D2]; [|exfalso; apply D2; rewrite <- P0, <- N0; lra].
    exists 0, cb. split; [reflexivity|]. split; [exact HCb|]. split; [right; split; [lra|exact D2]|]. split; [lra|lia].
Qed.
Lemma at_zero : at_step 0 = x.
Proof. apply functional_extensionality. intros i. unfold at_step, vadd, vscal. ring. Qed.
Lemma line_search_ok fuel : (6 <= fuel)%nat -> exists s k, line_search n F fuel x (F x) dx = Ok (vadd x (vscal s dx), F (vadd x (vscal s dx)), s, k) /\
  (s = 1 \/ (0 <= s < 3 /\ value s <= value 0 - c1 * s * value 0)) /\ (0 < value 0 -> 0 < s) /\ (k <= 9)%nat.
Proof.
  intros HF. assert (V0 : vdot n (F x) (F x) = value 0) by (unfold value; rewrite at_zero; reflexivity). unfold line_search.
  destruct (search_ok fuel (vdot n (F x) (F x)) (mkcache (Some 0) (vdot n (F x) (F x)) (F x) 0) HF V0) as [s [c [-> [HC [D [S0 E]]]]]].
  - unfold cache_ok. cbn. rewrite at_zero. split; [reflexivity|exact V0].
  - cbn [bind]. rewrite V0 in *. cbn [evals] in E. unfold cache_ok in HC. destruct (tmp_s c) as [t|].
    + destruct (Req_EM_T s t) as [->|].
      * exists t, (evals c). destruct HC as [-> _]. split; [reflexivity|]. split; [exact D|]. split; [exact S0|lia].
      * exists s, (S (evals c)). split; [reflexivity|]. split; [exact D|]. split; [exact S0|lia].
    + exists s, (S (evals c)). split; [reflexivity|]. split; [exact D|]. split; [exact S0|lia].
Qed.
End Search.
