(** Properties of the DG matrices and of the predictor. *)
From Coq Require Import Reals Lra Lia FunctionalExtensionality.
From Coquelicot Require Import Coquelicot.
From Verif Require Import Base Options Sum PolyModel PolyProof LegendreModel LegendreSpec LegendreProof2 LegendreProof3 LegendreProps EqModel EqSpec EqProof FvModel FvBody FvProps WenoModel StepperModel
  DgModel DgSpec DgProof DgProof2 DgProof3.
Import List ListNotations.
Open Scope R_scope.

(** ** C29 *)
(** The matrices are given with their sizes and entries; the result has the products of the sizes, and the entry at the
    row-major positions of two index tuples is the product of the entries. *)
Theorem kron_is_kronecker_product (mats : list mtx) (ds : list (nat * nat * (nat -> nat -> R))) :
  (2 <= length mats)%nat -> Forall2 (fun m d => is_mtx m (fst (fst d)) (snd (fst d)) (snd d)) mats ds ->
  let rs := map (fun d => fst (fst d)) ds in let cs := map (fun d => snd (fst d)) ds in
  exists k, kron mats = Ok k /\ mrows k = product rs /\ mcols k = product cs /\
    forall is js, within rs is -> within cs js -> mget k (lex rs is) (lex cs js) = Ok (entries (map snd ds) is js).
Proof.
  intros L F. assert (F' : Forall2 is3 mats ds) by (clear L; induction F as [|m [[r c] f] ms ds H F IH]; constructor; [exact H|exact IH]).
  destruct (kron_ok mats ds L F') as [k [[[r c] f] [E [[H1 [H2 [H3 H4]]] [-> [-> P]]]]]]. exists k. split; [exact E|]. split; [exact H1|]. split; [exact H2|].
  intros is js Hi Hj. rewrite H4 by (apply lex_lt; assumption). rewrite P by assumption. reflexivity.
Qed.
Print Assumptions kron_is_kronecker_product.
(** Shorter lists index the vector before its start. *)
Theorem kron_short_lists : kron [] = UB "mats[-2]" /\ forall a, kron [a] = UB "mats[-1]".
Proof. split; reflexivity. Qed.
Print Assumptions kron_short_lists.
Example kron_hyps : Forall2 (fun m (d : nat * nat * (nat -> nat -> R)) => is_mtx m (fst (fst d)) (snd (fst d)) (snd d))
  [full 2 (fun i j => INR (i + 2 * j)); full 3 (fun i j => INR (i * j))] [(2, 2, fun i j => INR (i + 2 * j)); (3, 3, fun i j => INR (i * j))]%nat.
Proof. repeat constructor; try apply full_ok. Qed.

(** ** C31 *)
Section Basis.
Variables (nodes : list R) (bs : list poly) (w : nat -> R).
Let n := length nodes.
Let x k := nth k nodes 0.
(** the tables the program computes: they are total on the basis *)
Lemma der_table j : dg_basis nodes bs w -> (j < n)%nat -> exists p, diff 1 (nth j bs []) = Ok p /\ (forall t, is_derive (evaluate (nth j bs [])) t (evaluate p t)) /\ evaluate p = evaluate (dpoly bs j).
Proof.
  intros [DN [HB [N1 EX]]] Hj. exists (dpoly bs j). destruct (d_ok nodes bs HB N1 j Hj) as [E _].
  split; [|split; [|reflexivity]].
  - cbn [diff]. rewrite E. reflexivity.
  - intros t. exact (d_derive nodes bs HB N1 j t Hj).
Qed.
End Basis.

(** [D] is what derivative_products computes; [M] is DG_MAT. *)
Theorem dg_summation_by_parts nodes bs w : dg_basis nodes bs w ->
  let n := length nodes in let psi j t := evaluate (nth j bs []) t in
  exists D, (forall i j, (i < n)%nat -> (j < n)%nat -> derivative_products bs (fun k => nth k nodes 0) w i j = Ok (D i j)) /\
    (forall i j, (i < n)%nat -> (j < n)%nat -> is_RInt (fun t => psi i t * Derive (psi j) t) 0 1 (D i j)) /\
    (forall i j, (i < n)%nat -> (j < n)%nat -> D i j + D j i = psi i 1 * psi j 1 - psi i 0 * psi j 0) /\
    let M := DG_MAT D (end_value_products bs) in
    (forall i, (i < n)%nat -> rsum n (fun j => M i j) = end_values bs 0 i) /\
    (forall v, (forall i, (i < n)%nat -> rsum n (fun j => M i j * v j) = 0) -> forall j, (j < n)%nat -> v j = 0).
Proof.
  intros [DN [HB [N1 EX]]]. cbv zeta. exists (Dmat bs (fun k => nth k nodes 0) w).
  split; [intros i j Hi Hj; exact (derivative_products_ok nodes bs w HB N1 i j Hj)|].
  split; [|split; [|split]].
  - intros i j Hi Hj. eapply (@is_RInt_ext R_NormedModule); [|exact (D_int nodes bs w DN HB N1 EX i j Hi Hj)].
    intros t _. cbv beta. f_equal. symmetry. apply is_derive_unique. exact (d_derive nodes bs HB N1 j t Hj).
  - exact (D_sbp nodes bs w DN HB N1 EX).
  - exact (M_one nodes bs w DN HB N1 EX).
  - exact (M_inj nodes bs w DN HB N1 EX).
Qed.
Print Assumptions dg_summation_by_parts.

(** The hypotheses hold for the Gauss rule of every order (with exact eigenvalues) and the basis of its nodes. *)
Theorem gauss_dg_basis P deg eig : (1 <= deg)%nat ->
  (forall k, (k < deg)%nat -> eigenvalue deg (legcompanion deg) (eig k)) -> (forall i j, (i < j < deg)%nat -> eig i < eig j) ->
  exists x w bs, leggauss P deg eig = Ok (x, w) /\ dg_basis (map (scaled_nodes x) (seq 0 deg)) bs (scaled_weights w) /\ forall k, (k < deg)%nat -> x k = eig k.
Proof.
  intros Hd Ev In. destruct (gauss_exact_rule P deg eig Hd Ev In) as [x [w [E [X [_ [_ Ex]]]]]].
  destruct (basis_ok (map (scaled_nodes x) (seq 0 deg))) as [bs [Eb _]]. exists x, w, bs. split; [exact E|]. split; [|intros k Hk; apply X, Hk].
  assert (Nth : forall k, (k < deg)%nat -> nth k (map (scaled_nodes x) (seq 0 deg)) 0 = scaled_nodes x k).
  { intros k Hk. rewrite (nth_indep _ 0 (scaled_nodes x 0%nat)) by (rewrite map_length, seq_length; exact Hk). rewrite map_nth, seq_nth by exact Hk. reflexivity. }
  split; [|split; [exact Eb|]].
  - intros i j Hi Hj Q. rewrite map_length, seq_length in Hi, Hj. rewrite !Nth in Q by assumption. unfold scaled_nodes in Q.
    destruct (X i Hi) as [Xi _]. destruct (X j Hj) as [Xj _]. destruct (lt_eq_lt_dec i j) as [[L|L]|L]; [|exact L|]; exfalso;
    [pose proof (In i j ltac:(lia))|pose proof (In j i ltac:(lia))]; lra.
  - rewrite map_length, seq_length. split; [exact Hd|]. intros p Lp. specialize (Ex p Lp). unfold quad in *.
    rewrite (rsum_ext deg _ (fun k => scaled_weights w k * evaluate p (scaled_nodes x k))) by (intros k Hk; rewrite Nth by exact Hk; reflexivity). exact Ex.
Qed.
Print Assumptions gauss_dg_basis.

(** the rule of order 2, the shipped one *)
Lemma two_node_basis : exists x0 x1 bs w, dg_basis [x0; x1] bs w /\ 1 / 100 < x0 /\ x0 < x1 /\ x1 < 1.
Proof.
  destruct gauss_hyps as [A B]. destruct (gauss_dg_basis 2 2 _ ltac:(lia) A B) as [x [w [bs [_ [G X]]]]].
  exists (scaled_nodes x 0%nat), (scaled_nodes x 1%nat), bs, (scaled_weights w). split; [exact G|].
  unfold scaled_nodes. rewrite (X 0%nat), (X 1%nat) by lia. cbn [Nat.eqb].
  assert (P : 0 < sqrt (/ 3)) by (apply sqrt_lt_R0; lra).
  assert (Q : sqrt (/ 3) * sqrt (/ 3) = / 3) by (apply sqrt_sqrt; lra).
  assert (sqrt (/ 3) < 6 / 10) by nra. split; [|split]; lra.
Qed.
Example dg_basis_hyps : exists nodes bs w, dg_basis nodes bs w /\ length nodes = 2%nat.
Proof. destruct two_node_basis as [x0 [x1 [bs [w [G _]]]]]. exists [x0; x1], bs, w. split; [exact G|reflexivity]. Qed.

(** ** C30 *)
Section C30.
Variables (o : options) (ph : phys) (WGHTS : nat -> R) (DERVALS DG_DER DG_M : nat -> nat -> R).
Hypothesis HV : VISCOUS o = true.
Hypothesis N1 : (1 <= N o)%nat.

(** for every table of weights, derivatives and time operator: the residual vanishes exactly when the state solves the
    linear system of the Picard iteration, whose matrix is the one kron returns *)
Theorem dg_residual_is_linear_system_1d dt dx Ww q : let n := (N o * N o)%nat in
  exists b ob k u, rhs1 o ph WGHTS DERVALS DG_DER dt dx q Ww = Ok b /\ obj1 o ph WGHTS DERVALS DG_DER DG_M dt dx Ww q = Ok ob /\
    kron [full (N o) DG_M; diagonal (N o) WGHTS] = Ok k /\ (mrows k = n /\ mcols k = n) /\
    (forall r c, (r < n)%nat -> (c < n)%nat -> mget k r c = Ok (u r c)) /\
    forall a, ((forall r, (r < n)%nat -> ob r a = 0) <-> (forall r, (r < n)%nat -> rsum n (fun c => u r c * q c a) = b r a)).
Proof.
  cbv zeta. destruct (obj1_row o ph HV WGHTS DERVALS DG_DER DG_M N1 dt dx q Ww) as [b [ob [Eb [Eo R]]]].
  destruct (kron_U1 o WGHTS DG_M) as [k [Ek [K1 [K2 [_ K3]]]]].
  exists b, ob, k, (U1 o WGHTS DG_M). repeat split; auto; intros H r Hr; specialize (H r Hr); pose proof (R r a Hr) as Q; lra.
Qed.
Theorem dg_residual_is_linear_system_2d dt dx dy Ww q : let n := (N o * N o * N o)%nat in
  exists b ob k u, rhs2 o ph WGHTS DERVALS DG_DER dt dx dy q Ww = Ok b /\ obj2 o ph WGHTS DERVALS DG_DER DG_M dt dx dy Ww q = Ok ob /\
    kron [full (N o) DG_M; diagonal (N o) WGHTS; diagonal (N o) WGHTS] = Ok k /\ (mrows k = n /\ mcols k = n) /\
    (forall r c, (r < n)%nat -> (c < n)%nat -> mget k r c = Ok (u r c)) /\
    forall a, ((forall r, (r < n)%nat -> ob r a = 0) <-> (forall r, (r < n)%nat -> rsum n (fun c => u r c * q c a) = b r a)).
Proof.
  cbv zeta. destruct (obj2_row o ph HV WGHTS DERVALS DG_DER DG_M N1 dt dx dy q Ww) as [b [ob [Eb [Eo R]]]].
  destruct (kron_U2 o WGHTS DG_M N1) as [k [Ek [K1 [K2 [_ K3]]]]].
  exists b, ob, k, (U2 o WGHTS DG_M). repeat split; auto; intros H r Hr; specialize (H r Hr); pose proof (R r a Hr) as Q; lra.
Qed.
End C30.
Print Assumptions dg_residual_is_linear_system_1d.
Print Assumptions dg_residual_is_linear_system_2d.

(** [solve] returns a solution of the system with the matrix k, for every right-hand side *)
Definition solves (n : nat) (k : res mtx) (solve : nodal -> nodal) : Prop :=
  exists m u, k = Ok m /\ (forall r c, (r < n)%nat -> (c < n)%nat -> mget m r c = Ok (u r c)) /\
    forall b r a, (r < n)%nat -> rsum n (fun c => u r c * solve b c a) = b r a.

(** the tables of globals.cpp for a basis *)
Definition Mof nodes bs w := DG_MAT (Dmat bs (fun k => nth k nodes 0) w) (end_value_products bs).

Section C30b.
Variables (o : options) (ph : phys) (nodes : list R) (bs : list poly) (w : nat -> R) (DERVALS DG_DER : nat -> nat -> R).
Hypothesis HV : VISCOUS o = true.
Hypothesis HN : length nodes = N o.
Hypothesis HB : dg_basis nodes bs w.
Notation M := (Mof nodes bs w).

Lemma M_injective v : (forall i, (i < N o)%nat -> rsum (N o) (fun j => M i j * v j) = 0) -> forall j, (j < N o)%nat -> v j = 0.
Proof. destruct HB as [DN [Hb [N1 EX]]]. rewrite <- HN. exact (M_inj nodes bs w DN Hb N1 EX v). Qed.
Lemma weights_nonzero i : (i < N o)%nat -> w i <> 0.
Proof. destruct HB as [DN [Hb [N1 EX]]]. rewrite <- HN. exact (w_nonzero nodes bs w DN Hb N1 EX i). Qed.
Lemma N_pos : (1 <= N o)%nat. Proof. destruct HB as [_ [_ [N1 _]]]. lia. Qed.

Lemma solves_U1 solve : solves (N o * N o) (kron [full (N o) M; diagonal (N o) w]) solve ->
  forall b r a, (r < N o * N o)%nat -> rsum (N o * N o) (fun c => U1 o w M r c * solve b c a) = b r a.
Proof.
  intros [m [u [E [U S]]]] b r a Hr. destruct (kron_U1 o w M) as [k [Ek [_ [_ [_ K]]]]]. rewrite E in Ek. injection Ek as <-.
  rewrite <- (S b r a Hr). apply rsum_ext. intros c Hc. f_equal. specialize (U r c Hr Hc). rewrite K in U by assumption. congruence.
Qed.
Lemma solves_U2 solve : solves (N o * N o * N o) (kron [full (N o) M; diagonal (N o) w; diagonal (N o) w]) solve ->
  forall b r a, (r < N o * N o * N o)%nat -> rsum (N o * N o * N o) (fun c => U2 o w M r c * solve b c a) = b r a.
Proof.
  intros [m [u [E [U S]]]] b r a Hr. destruct (kron_U2 o w M N_pos) as [k [Ek [_ [_ [_ K]]]]]. rewrite E in Ek. injection Ek as <-.
  rewrite <- (S b r a Hr). apply rsum_ext. intros c Hc. f_equal. specialize (U r c Hr Hc). rewrite K in U by assumption. congruence.
Qed.

(** with the tables of an interpolating basis the roots of the residual are the fixed points of the Picard iteration *)
Theorem dg_residual_roots_are_fixed_points_1d solve dt dx Ww q : solves (N o * N o) (kron [full (N o) M; diagonal (N o) w]) solve ->
  exists b ob, rhs1 o ph w DERVALS DG_DER dt dx q Ww = Ok b /\ obj1 o ph w DERVALS DG_DER M dt dx Ww q = Ok ob /\
    forall a, ((forall r, (r < N o * N o)%nat -> ob r a = 0) <-> (forall r, (r < N o * N o)%nat -> solve b r a = q r a)).
Proof.
  intros S. destruct (obj1_row o ph HV w DERVALS DG_DER M N_pos dt dx q Ww) as [b [ob [Eb [Eo R]]]]. exists b, ob. split; [exact Eb|]. split; [exact Eo|].
  pose proof (solves_U1 solve S) as S1. intros a. split; intros H.
  - apply (U1_inj o w M N_pos M_injective weights_nonzero). intros r Hr. rewrite S1 by exact Hr. specialize (H r Hr). specialize (R r a Hr). lra.
  - intros r Hr. rewrite R, <- (S1 b r a Hr) by exact Hr. apply Rminus_diag_eq. apply rsum_ext. intros c Hc. now rewrite H.
Qed.
Theorem dg_residual_roots_are_fixed_points_2d solve dt dx dy Ww q : solves (N o * N o * N o) (kron [full (N o) M; diagonal (N o) w; diagonal (N o) w]) solve ->
  exists b ob, rhs2 o ph w DERVALS DG_DER dt dx dy q Ww = Ok b /\ obj2 o ph w DERVALS DG_DER M dt dx dy Ww q = Ok ob /\
    forall a, ((forall r, (r < N o * N o * N o)%nat -> ob r a = 0) <-> (forall r, (r < N o * N o * N o)%nat -> solve b r a = q r a)).
Proof.
  intros S. destruct (obj2_row o ph HV w DERVALS DG_DER M N_pos dt dx dy q Ww) as [b [ob [Eb [Eo R]]]]. exists b, ob. split; [exact Eb|]. split; [exact Eo|].
  pose proof (solves_U2 solve S) as S1. intros a. split; intros H.
  - apply (U2_inj o w M N_pos M_injective weights_nonzero). intros r Hr. rewrite S1 by exact Hr. specialize (H r Hr). specialize (R r a Hr). lra.
  - intros r Hr. rewrite R, <- (S1 b r a Hr) by exact Hr. apply Rminus_diag_eq. apply rsum_ext. intros c Hc. now rewrite H.
Qed.
End C30b.
Print Assumptions dg_residual_roots_are_fixed_points_1d.
Print Assumptions dg_residual_roots_are_fixed_points_2d.

(** an exact solver exists for two nodes *)
Lemma two_node_solver o nodes bs w : dg_basis nodes bs w -> N o = 2%nat -> length nodes = 2%nat ->
  exists solve, solves (N o * N o) (kron [full (N o) (Mof nodes bs w); diagonal (N o) w]) solve.
Proof.
  intros G N2 L. assert (HN : length nodes = N o) by congruence. set (M := Mof nodes bs w).
  pose proof (M_injective o nodes bs w HN G) as Inj. fold M in Inj. rewrite N2 in Inj.
  set (dt := M 0%nat 0%nat * M 1%nat 1%nat - M 0%nat 1%nat * M 1%nat 0%nat).
  assert (D0 : dt <> 0).
  { intros D. assert (A : forall j, (j < 2)%nat -> (fun j => if Nat.eqb j 0 then M 1%nat 1%nat else - M 1%nat 0%nat) j = 0).
    { apply Inj. intros [|[|i]] Hi; try lia; cbn [rsum Nat.eqb]; unfold dt in D; lra. }
    assert (B : forall j, (j < 2)%nat -> (fun j => if Nat.eqb j 0 then M 0%nat 1%nat else - M 0%nat 0%nat) j = 0).
    { apply Inj. intros [|[|i]] Hi; try lia; cbn [rsum Nat.eqb]; unfold dt in D; lra. }
    pose proof (A 0%nat ltac:(lia)) as A0. pose proof (A 1%nat ltac:(lia)) as A1. pose proof (B 0%nat ltac:(lia)) as B0. pose proof (B 1%nat ltac:(lia)) as B1. cbn [Nat.eqb] in *.
    assert (C : forall j, (j < 2)%nat -> (fun _ : nat => 1) j = 0); [|pose proof (C 0%nat ltac:(lia)); lra].
    apply Inj. intros [|[|i]] Hi; try lia; cbn [rsum]; lra. }
  pose (Minv := fun i j : nat => (match i, j with 0%nat, 0%nat => M 1%nat 1%nat | 0%nat, _ => - M 0%nat 1%nat | _, 0%nat => - M 1%nat 0%nat | _, _ => M 0%nat 0%nat end) / dt).
  exists (solver1 o w Minv). destruct (kron_U1 o w M) as [k [Ek [_ [_ [_ K]]]]]. exists k, (U1 o w M). split; [exact Ek|]. split; [exact K|].
  intros b r a Hr. apply solver1_exact; [lia|exact (weights_nonzero o nodes bs w HN G)| |exact Hr].
  rewrite N2. intros i j Hi Hj. destruct i as [|[|i]], j as [|[|j]]; try lia; cbn [rsum Nat.eqb]; unfold Minv; fold dt; field_simplify; try exact D0; unfold dt in *; field; exact D0.
Qed.
Example solves_hyps : exists nodes bs w solve, dg_basis nodes bs w /\ length nodes = N shipped /\
  solves (N shipped * N shipped) (kron [full (N shipped) (Mof nodes bs w); diagonal (N shipped) w]) solve.
Proof.
  destruct dg_basis_hyps as [nodes [bs [w [G L]]]]. destruct (two_node_solver shipped nodes bs w G eq_refl L) as [solve S]. exists nodes, bs, w, solve. auto.
Qed.

(** ** C32 *)
Section C32.
Variables (o : options) (ph : phys) (WGHTS : nat -> R) (ENDVALS DERVALS DG_DER DG_M : nat -> nat -> R).
Variables (dt : R) (dX : nat -> R) (DG_IT : nat) (DG_TOL : R) (solve : nat -> nodal -> nodal).
Variable nonlin_solve : (option nodal -> res (option nodal)) -> option nodal -> res (option nodal).
Variables (valid : nodal -> bool) (nan_far : option nodal -> option nodal -> bool).
Hypothesis HV : VISCOUS o = true.
Hypothesis N1 : (1 <= N o)%nat.
Notation cell STIFF STIFF_IG := (predictor_cell o ph WGHTS ENDVALS DERVALS DG_DER DG_M dt dX DG_IT DG_TOL solve nonlin_solve valid nan_far STIFF STIFF_IG).
Notation rhs := (rhs o ph WGHTS DERVALS DG_DER dt dX).

(** one Picard iteration *)
Definition picard_map (ndim : nat) (Ww q : nodal) : nodal := match rhs ndim q Ww with Ok b => solve ndim b | _ => q end.
Lemma picard_map_ok ndim Ww q : exists b, rhs ndim q Ww = Ok b /\ picard_map ndim Ww q = solve ndim b.
Proof.
  unfold picard_map. assert (E : exists b, rhs ndim q Ww = Ok b).
  { unfold DgModel.rhs. destruct ndim as [|[|]]; [edestruct rhs2_ok as [m [E _]]|edestruct rhs1_ok as [m [E _]]|edestruct rhs2_ok as [m [E _]]]; eauto. }
  destruct E as [b E]. exists b. now rewrite E.
Qed.

(** The cell of a finite state is written with the first iterate that meets the criterion, and left unwritten when none
    of the first DG_IT does, as long as the constitutive functions give no NaN. Missing: that the cell is always written,
    refuted below. *)
Theorem predictor_writes_converged_cells_partial ndim l w : view l = Some w ->
  let G := picard_map ndim (initial_condition o WGHTS ENDVALS ndim w) in
  let q0 := standard_initial_guess o ndim w in let n := (N o ^ (ndim + 1))%nat in
  (forall m, (m < DG_IT)%nat -> valid (iter G m q0) = true) ->
  (forall m, (m < DG_IT)%nat -> close o DG_TOL n (iter G (S m) q0) (iter G m q0) -> (forall j, (j < m)%nat -> ~ close o DG_TOL n (iter G (S j) q0) (iter G j q0)) ->
     cell false false ndim l = Ok (Some (Some (iter G (S m) q0)))) /\
  ((forall m, (m < DG_IT)%nat -> ~ close o DG_TOL n (iter G (S m) q0) (iter G m q0)) -> cell false false ndim l = Ok None).
Proof.
  intros Vw G q0 n Val. unfold predictor_cell. rewrite Vw. cbn [option_map bind].
  set (nc := _ : res (option nodal)).
  match goal with |- context [picard _ _ _ _ _ ?s _ _] => set (step := s) end.
  assert (HG : forall m, (m < DG_IT)%nat -> step (Some (iter G m q0)) = Ok (Some (G (iter G m q0)))).
  { intros m Hm. unfold step, lift. rewrite Val by exact Hm. destruct (picard_map_ok ndim (initial_condition o WGHTS ENDVALS ndim w) (iter G m q0)) as [b [Eb Gb]].
    rewrite Eb. cbn [bind]. rewrite <- Gb. reflexivity. }
  destruct (picard_iter o DG_TOL nan_far n step G nc DG_IT q0 HG) as [[A E]|[m [Hm [A [C E]]]]].
  - split; [intros m Hm C; destruct (A m Hm C)|intros _; exact E].
  - split; [|intros H; destruct (H m Hm C)]. intros m' Hm' C' A'. replace m' with m; [exact E|].
    destruct (lt_eq_lt_dec m m') as [[Q|Q]|Q]; [|exact Q|]; [destruct (A' m Q C)|destruct (A m' Q C')].
Qed.

(** A contraction with factor κ is written if κ^m of the first step is below the tolerance for some m < DG_IT. *)
Theorem predictor_writes_contractions ndim l w kappa d m : view l = Some w ->
  let G := picard_map ndim (initial_condition o WGHTS ENDVALS ndim w) in
  let q0 := standard_initial_guess o ndim w in let n := (N o ^ (ndim + 1))%nat in
  (forall m, (m < DG_IT)%nat -> valid (iter G m q0) = true) ->
  (forall p q e, apart_by o n p q e -> apart_by o n (G p) (G q) (kappa * e)) ->
  0 <= DG_TOL -> apart_by o n (G q0) q0 d -> (m < DG_IT)%nat -> kappa ^ m * d <= DG_TOL ->
  exists q, cell false false ndim l = Ok (Some (Some q)).
Proof.
  intros Vw G q0 n Val K T D Hm S. destruct (predictor_writes_converged_cells_partial ndim l w Vw Val) as [A B]. fold G q0 n in A, B.
  assert (P : forall j, apart_by o n (iter G (Datatypes.S j) q0) (iter G j q0) (kappa ^ j * d)).
  { induction j as [|j IH]; [cbn [pow]; rewrite Rmult_1_l; exact D|]. rewrite !(iter_S G). rewrite (iter_S G) in IH. apply K in IH. cbn [pow]. rewrite Rmult_assoc. exact IH. }
  assert (C : close o DG_TOL n (iter G (Datatypes.S m) q0) (iter G m q0)).
  { intros r k Hr Hk. specialize (P m r k Hr Hk). pose proof (Rabs_pos (iter G m q0 r k)). apply (Rle_trans _ _ _ P), (Rle_trans _ _ _ S). nra. }
  assert (First : exists m', (m' < DG_IT)%nat /\ close o DG_TOL n (iter G (Datatypes.S m') q0) (iter G m' q0) /\
      forall j, (j < m')%nat -> ~ close o DG_TOL n (iter G (Datatypes.S j) q0) (iter G j q0)).
  { clear - C Hm nan_far. revert C Hm. induction m as [m IH] using lt_wf_ind. intros C Hm.
    assert (Dec : (exists j, (j < m)%nat /\ close o DG_TOL n (iter G (Datatypes.S j) q0) (iter G j q0)) \/ (forall j, (j < m)%nat -> ~ close o DG_TOL n (iter G (Datatypes.S j) q0) (iter G j q0))).
    { clear IH C Hm. induction m as [|m IH]; [right; intros; lia|].
      destruct (far o DG_TOL nan_far n (Some (iter G (Datatypes.S m) q0)) (Some (iter G m q0))) eqn:F.
      - destruct IH as [[j [Hj C]]|A]; [left; exists j; split; [lia|exact C]|right]. intros j Hj. destruct (Nat.eq_dec j m) as [-> |]; [rewrite <- far_close with (nan_far := nan_far); congruence|apply A; lia].
      - left. exists m. split; [lia|]. apply far_close in F. exact F. }
    destruct Dec as [[j [Hj Cj]]|A]; [exact (IH j Hj Cj ltac:(lia))|exists m; auto]. }
  destruct First as [m' [Hm' [C' F']]]. eexists. exact (A m' Hm' C' F').
Qed.

(** With STIFF the cell is always written when the nonlinear solver returns. *)
Theorem predictor_writes_stiff ndim l : (forall f x, exists y, nonlin_solve f x = Ok y) ->
  exists q, cell true false ndim l = Ok (Some q).
Proof. intros H. unfold predictor_cell. cbn [bind]. edestruct H as [y E]. rewrite E. cbn [bind]. eauto. Qed.

(** In 2-D a NaN state makes the predictor assign blocks of the wrong size. *)
Theorem predictor_nan_2d_refuted l : (2 <= N o)%nat -> (1 <= DG_IT)%nat -> view l = None -> nan_far None None = false ->
  cell false false 2 l = UB "block size mismatch".
Proof.
  intros N2 HI Vl Nf. unfold predictor_cell. rewrite Vl. cbn [option_map bind]. destruct DG_IT as [|c]; [lia|]. cbn [picard bind]. unfold far. rewrite Nf.
  unfold stiff_initial_guess. destruct (Nat.eqb_spec (N o ^ 2)%nat (N o)) as [E|E]; [cbn in E; nia|reflexivity].
Qed.
End C32.
Print Assumptions predictor_writes_converged_cells_partial.
Print Assumptions predictor_writes_contractions.
Print Assumptions predictor_writes_stiff.
Print Assumptions predictor_nan_2d_refuted.
Example view_hyps : exists w, view [Some (fun _ => 1); Some (fun _ => 2)] = Some w /\ view [None; Some (fun _ => 2)] = None.
Proof. eexists. split; reflexivity. Qed.

(** *** The predictor may leave an active cell unwritten *)
(** a source that is large below a threshold and vanishes above it *)
Definition threshold_phys : phys := mkphys (fun _ => 0) (fun _ _ _ => 0) (fun _ _ => 0) 0
  (fun Q k => match k with 0%nat => if Rlt_dec (Q 0%nat) 5 then 1000 else 0 | _ => 0 end) (fun _ _ => 0) (fun _ _ _ _ => 0) (fun _ x => x).
Definition ones : vec := fun _ => 1.
Definition Dv (bs : list poly) (nodes : list R) (i j : nat) : R := evaluate (dpoly bs j) (nth i nodes 0).

Section Refute.
Variables (x0 x1 : R) (bs : list poly) (w : nat -> R) (solve : nat -> nodal -> nodal).
Let nodes := [x0; x1].
Hypothesis G : dg_basis nodes bs w.
Hypothesis X : 1 / 100 < x0 /\ x0 < x1 /\ x1 < 1.
Notation M := (Mof nodes bs w).
Hypothesis S : solves (N shipped * N shipped) (kron [full (N shipped) M; diagonal (N shipped) w]) (solve 1%nat).
Let D := Dmat bs (fun k => nth k nodes 0) w.
Notation Gm := (picard_map shipped threshold_phys w (Dv bs nodes) D 1 (fun _ => 1) solve 1 (initial_condition shipped w (end_values bs) 1 (fun _ => ones))).
Let Q1 (t : nat) : vec := fun k => match k with 0%nat => 1 + 1000 * nth t nodes 0 | _ => 1 end.

Lemma node_range t : (t < 2)%nat -> 1 / 100 < nth t nodes 0 < 1.
Proof. intros H. destruct t as [|[|]]; [| |lia]; cbn [nth nodes]; lra. Qed.

Lemma picard_steps Q Q' q : (forall t i, (t < 2)%nat -> (i < 2)%nat -> q (t * 2 + i)%nat = Q t) ->
  (forall t k, (t < 2)%nat -> rsum 2 (fun m => M t m * Q' m k) = source threshold_phys (Q t) k * w t + end_values bs 0 t) ->
  forall t i, (t < 2)%nat -> (i < 2)%nat -> Gm q (t * 2 + i)%nat = Q' t.
Proof.
  intros Hq Hs. pose proof G as [DN [HB [N1 EX]]].
  assert (DR : forall s, (s < N shipped)%nat -> rsum (N shipped) (Dv bs nodes s) = 0) by (intros s _; exact (sum_dpsi nodes bs DN HB N1 (nth s nodes 0))).
  assert (DD : forall i, (i < N shipped)%nat -> rsum (N shipped) (D i) = 0) by (intros i Hi; exact (D_row nodes bs w DN HB N1 EX i Hi)).
  destruct (rhs1_space_uniform shipped threshold_phys eq_refl w (Dv bs nodes) D ltac:(cbn; lia) DR DD 1 1 q Q (initial_condition shipped w (end_values bs) 1 (fun _ => ones)) Hq) as [m [E F]].
  intros t i Ht Hi. apply functional_extensionality. intros k. unfold picard_map, rhs. rewrite E.
  pose proof (solves_U1 shipped nodes bs w (solve 1%nat) S m) as S1.
  transitivity ((fun r => Q' (r / 2)%nat) (t * 2 + i)%nat k).
  2:{ cbv beta. destruct (WenoProof.divmod 2 t i Hi) as [-> _]. reflexivity. }
  apply (U1_inj shipped w M ltac:(cbn; lia) (M_injective shipped nodes bs w eq_refl G) (weights_nonzero shipped nodes bs w eq_refl G) (solve 1%nat m) (fun r => Q' (r / 2)%nat) k); [|apply (WenoProof.pack_lt t i 2 2 Ht Hi)].
  intros r Hr. rewrite S1 by exact Hr. rewrite F by exact Hr.
  rewrite (U1_row shipped w M ltac:(cbn; lia) (fun r => Q' (r / 2)%nat) r k Hr).
  unfold initial_condition, initial_condition1, ones. cbn [N shipped] in *.
  assert (Hm : (r mod 2 < 2)%nat) by (apply Nat.mod_upper_bound; lia).
  assert (Hd : (r / 2 < 2)%nat) by (apply Nat.div_lt_upper_bound; lia).
  rewrite (rsum_ext 2 _ (fun m => w (r mod 2)%nat * (M (r / 2)%nat m * Q' m k))).
  2:{ intros m' Hm'. destruct (WenoProof.divmod 2 m' (r mod 2) Hm) as [-> _]. ring. }
  rewrite rsum_scal, Hs by exact Hd. ring.
Qed.

Lemma picard_cycle m : forall t i, (t < 2)%nat -> (i < 2)%nat ->
  iter Gm m (standard_initial_guess shipped 1 (fun _ => ones)) (t * 2 + i)%nat = (if Nat.even m then ones else Q1 t).
Proof.
  pose proof G as [DN [HB [N1 EX]]].
  assert (One : forall t, (t < 2)%nat -> rsum 2 (fun m => M t m) = end_values bs 0 t) by exact (M_one nodes bs w DN HB N1 EX).
  assert (Id : forall t, (t < 2)%nat -> rsum 2 (fun m => M t m * nth m nodes 0) = w t) by (intros t Ht; exact (M_id nodes bs w DN HB N1 EX t ltac:(cbn; lia) Ht)).
  induction m as [|m IH]; [reflexivity|]. intros t i Ht Hi. rewrite iter_S, Nat.even_succ, <- Nat.negb_even.
  destruct (Nat.even m); cbn [negb].
  - apply (picard_steps (fun _ => ones) Q1); auto. intros s k Hs. cbn [source threshold_phys].
    destruct k as [|k]; unfold Q1.
    + unfold ones. destruct (Rlt_dec 1 5); [|lra]. rewrite <- (One s Hs), <- (Id s Hs). rewrite <- rsum_scal, <- rsum_plus. apply rsum_ext. intros; ring.
    + rewrite <- (One s Hs), Rmult_0_l, Rplus_0_l. apply rsum_ext. intros; ring.
  - apply (picard_steps Q1 (fun _ => ones)); auto. intros s k Hs. cbn [source threshold_phys]. unfold ones.
    rewrite <- (One s Hs). replace (match k with 0%nat => if Rlt_dec (Q1 s 0%nat) 5 then 1000 else 0 | Datatypes.S _ => 0 end) with 0.
    + rewrite Rmult_0_l, Rplus_0_l. apply rsum_ext. intros; ring.
    + destruct k; [|reflexivity]. destruct (Rlt_dec _ 5) as [L|]; [|reflexivity]. exfalso. unfold Q1 in L. pose proof (node_range s Hs). lra.
Qed.

Lemma picard_never_close m : ~ close shipped (6 / 1000000) 4 (iter Gm (Datatypes.S m) (standard_initial_guess shipped 1 (fun _ => ones))) (iter Gm m (standard_initial_guess shipped 1 (fun _ => ones))).
Proof.
  intros C. specialize (C 0%nat 0%nat ltac:(lia) ltac:(cbn; lia)).
  pose proof (picard_cycle (Datatypes.S m) 0%nat 0%nat ltac:(lia) ltac:(lia)) as A. pose proof (picard_cycle m 0%nat 0%nat ltac:(lia) ltac:(lia)) as B.
  change (0 * 2 + 0)%nat with 0%nat in A, B. rewrite A, B in C. rewrite Nat.even_succ, <- Nat.negb_even in C.
  pose proof (node_range 0%nat ltac:(lia)) as R. cbn [nth nodes] in R.
  destruct (Nat.even m); cbn [negb] in C; unfold Q1, ones in C; cbn [nth nodes] in C.
  - replace (1 + 1000 * x0 - 1) with (1000 * x0) in C by ring. rewrite !Rabs_pos_eq in C by lra. lra.
  - replace (1 - (1 + 1000 * x0)) with (- (1000 * x0)) in C by ring. rewrite Rabs_Ropp, !Rabs_pos_eq in C by lra. lra.
Qed.
End Refute.

(** With the shipped options, an exact rule, exact solvers and a finite uniform state there is a source for which the
    predictor writes no cell, whatever the number of iterations: the coefficients stay uninitialised. *)
Theorem predictor_writes_every_cell_refuted : exists ph nodes bs w solve,
  dg_basis nodes bs w /\ length nodes = N shipped /\
  solves (N shipped * N shipped) (kron [full (N shipped) (Mof nodes bs w); diagonal (N shipped) w]) (solve 1%nat) /\
  forall DG_IT nonlin_solve nan_far nx,
    let Phi := Phi shipped ph w (end_values bs) (Dv bs nodes) (Dmat bs (fun k => nth k nodes 0) w) (Mof nodes bs w) 1 (fun _ => 1) DG_IT (6 / 1000000) solve
                 nonlin_solve (fun _ => true) nan_far false false in
    predictor (N shipped) (option nodal) Phi 1 (N shipped) (balloc (nx * N shipped)) (mkbuf (nx * N shipped) (fun _ => Some (Some ones))) (mkbuf nx (fun _ => Some true))
    = Ok (balloc (nx * N shipped)).
Proof.
  destruct two_node_basis as [x0 [x1 [bs [w [G X]]]]]. destruct (two_node_solver shipped [x0; x1] bs w G eq_refl eq_refl) as [solve Sv].
  exists threshold_phys, [x0; x1], bs, w, (fun _ => solve). split; [exact G|]. split; [reflexivity|]. split; [exact Sv|].
  intros DG_IT nonlin_solve nan_far nx Phi. cbn [N shipped].
  assert (HP : Phi 1%nat [Some ones; Some ones] = Ok None).
  { unfold Phi, DgModel.Phi. destruct (predictor_writes_converged_cells_partial shipped threshold_phys w (end_values bs) (Dv bs [x0; x1]) (Dmat bs (fun k => nth k [x0; x1] 0) w) (Mof [x0; x1] bs w)
      1 (fun _ => 1) DG_IT (6 / 1000000) (fun _ => solve) nonlin_solve (fun _ => true) nan_far eq_refl ltac:(cbn; lia) 1%nat [Some ones; Some ones] (fun s => match nth s [Some ones; Some ones] None with Some v => v | None => fun _ => 0 end) eq_refl) as [_ B].
    - reflexivity.
    - assert (Ew : forall a, (a < 2)%nat -> (fun s => match nth s [Some ones; Some ones] None with Some v => v | None => fun _ => 0 end) a = ones) by (intros [|[|a]] Ha; [reflexivity|reflexivity|lia]).
      rewrite B; [reflexivity|]. intros m _. 
      assert (Ei : initial_condition shipped w (end_values bs) 1 (fun s => match nth s [Some ones; Some ones] None with Some v => v | None => fun _ => 0 end)
                 = initial_condition shipped w (end_values bs) 1 (fun _ => ones)).
      { apply functional_extensionality. intros r. apply functional_extensionality. intros k. unfold initial_condition, initial_condition1. cbn [N shipped]. cbv zeta. rewrite (Ew (r mod 2)%nat) by (apply Nat.mod_upper_bound; lia). reflexivity. }
      assert (Eg : standard_initial_guess shipped 1 (fun s => match nth s [Some ones; Some ones] None with Some v => v | None => fun _ => 0 end) = standard_initial_guess shipped 1 (fun _ => ones)).
      { apply functional_extensionality. intros r. unfold standard_initial_guess. apply Ew. apply Nat.mod_upper_bound. discriminate. }
      rewrite Ei, Eg. exact (picard_never_close x0 x1 bs w (fun _ => solve) G X Sv m). }
  unfold predictor. cbn [blen].
  assert (L : forall n lo, (lo + n <= nx)%nat -> for_loop n lo (fun i qh => m <- rd (mkbuf nx (fun _ => Some true)) i ;;
     if (m : bool) then rows <- gather (rd (mkbuf (nx * 2) (fun _ => Some (Some ones)))) 2 (i * 2) ;; r <- Phi 1%nat rows ;;
       match r with Some f => for_loop 2 0 (fun t qh => wr qh (i * 2 + t) (f t)) qh | None => Ok qh end else Ok qh) (balloc (nx * 2)) = Ok (balloc (nx * 2))).
  { induction n as [|n IH]; intros lo H; [reflexivity|]. cbn [for_loop].
    rewrite (rd_ok _ _ true) by (cbn; try reflexivity; lia). cbn [bind gather]. 
    assert (Rd : forall a, (a < nx * 2)%nat -> rd (mkbuf (nx * 2) (fun _ : nat => Some (Some ones))) a = Ok (Some ones)) by (intros a Ha; apply rd_ok; [exact Ha|reflexivity]).
    rewrite (Rd (lo * 2)%nat) by lia. cbn [bind]. rewrite (Rd (S (lo * 2))) by lia. cbn [bind]. match goal with |- context [Phi 1%nat ?x] => assert (HP2 : Phi 1%nat x = Ok None) by exact HP; rewrite HP2 end. cbn [bind]. apply IH. lia. }
  apply L. lia.
Qed.
Print Assumptions predictor_writes_every_cell_refuted.
