(** C98: the space-time predictor solves the equations of the model at the nodes of the cell. *)
From Coq Require Import Reals Lia Lra ZArith FunctionalExtensionality.
From Coquelicot Require Import Coquelicot.
From Verif Require Import Base Options Sum PolyModel PolyProof LegendreSpec Mat3 EqModel EqSpec EqProof WenoModel WenoProof WenoProof3 FvModel FvBody FvSpec FvProof2 DgModel DgSpec DgProof DgProof2 DgProof3 DgProps StiffProof FaceProps CornerProof3 PredSpec PredProof.
Import List ListNotations.
Open Scope R_scope.

Section P.
Variables (o : options) (ph : phys) (nodes : list R) (bs : list poly) (w : nat -> R).
Hypothesis HV : VISCOUS o = true.
Hypothesis HN : length nodes = N o.
Hypothesis HB : dg_basis nodes bs w.
Notation n := (N o).
Notation x s := (nth s nodes 0).
Notation psi a z := (evaluate (nth a bs []) z).
Notation D := (Dmat bs (fun k => nth k nodes 0) w).
Notation M := (Mof nodes bs w).
Notation F d Q := (flux o ph (fun _ => 0) Q d).
Notation defect1 := (defect1 o ph nodes bs w).
Notation defect2 := (defect2 o ph nodes bs w).

(** the residual handed to the nonlinear solver is the defect of the equations, weighted *)
Theorem residual_is_defect_1d dt dx (w0 q : nodal) : exists ob,
  obj1 o ph w (Dv bs nodes) D M dt dx (initial_condition1 o w (end_values bs) w0) q = Ok ob /\
  forall m i k, (m < n)%nat -> (i < n)%nat -> ob (m * n + i)%nat k = w i * defect1 dt dx w0 q q m i k.
Proof.
  destruct (obj1_row o ph HV w (Dv bs nodes) D M (npos o nodes bs w HN HB) dt dx q (initial_condition1 o w (end_values bs) w0)) as [b [ob [Eb [Eo H]]]].
  exists ob. split; [exact Eo|]. intros m i k Hm Hi. rewrite H by (apply pack_lt; assumption).
  destruct (rhs1_rate o ph nodes bs w HV HN HB dt dx q w0) as [b' [Eb' B]]. rewrite Eb in Eb'. injection Eb' as <-.
  rewrite B, (time1 o nodes bs w HN HB) by assumption. unfold PredSpec.defect1. ring.
Qed.
Theorem residual_is_defect_2d dt dx dy (w0 q : nodal) : exists ob,
  obj2 o ph w (Dv bs nodes) D M dt dx dy (initial_condition2 o w (end_values bs) w0) q = Ok ob /\
  forall m i j k, (m < n)%nat -> (i < n)%nat -> (j < n)%nat -> ob ((m * n + i) * n + j)%nat k = w i * w j * defect2 dt dx dy w0 q q m i j k.
Proof.
  destruct (obj2_row o ph HV w (Dv bs nodes) D M (npos o nodes bs w HN HB) dt dx dy q (initial_condition2 o w (end_values bs) w0)) as [b [ob [Eb [Eo H]]]].
  exists ob. split; [exact Eo|]. intros m i j k Hm Hi Hj. rewrite H by (repeat apply pack_lt; assumption).
  destruct (rhs2_rate o ph nodes bs w HV HN HB dt dx dy q w0) as [b' [Eb' B]]. rewrite Eb in Eb'. injection Eb' as <-.
  rewrite B, (time2 o nodes bs w HN HB) by assumption. unfold PredSpec.defect2. ring.
Qed.

Section Cell.
Variables (dt : R) (dX : nat -> R) (DG_IT : nat) (DG_TOL : R) (solve : nat -> nodal -> nodal).
Variable nonlin_solve : (option nodal -> res (option nodal)) -> option nodal -> res (option nodal).
Variables (valid : nodal -> bool) (nan_far : option nodal -> option nodal -> bool).
Notation cell STIFF := (predictor_cell o ph w (end_values bs) (Dv bs nodes) D M dt dX DG_IT DG_TOL solve nonlin_solve valid nan_far STIFF false).
Hypothesis VT : forall q, valid q = true.
Notation wn i := (weights_nonzero o nodes bs w HN HB i).

(** one Picard iteration solves the equations with the rates of its argument *)
Lemma picard_defect_1d (w0 p q : nodal) b : solves (n * n) (kron [full n M; diagonal n w]) (solve 1%nat) ->
  rhs1 o ph w (Dv bs nodes) D dt (dX 0%nat) p (initial_condition1 o w (end_values bs) w0) = Ok b -> q = solve 1%nat b ->
  forall m i k, (m < n)%nat -> (i < n)%nat -> defect1 dt (dX 0%nat) w0 p q m i k = 0.
Proof.
  intros S E -> m i k Hm Hi. destruct (rhs1_rate o ph nodes bs w HV HN HB dt (dX 0%nat) p w0) as [b' [Eb' B]]. rewrite E in Eb'. injection Eb' as <-.
  specialize (B m i k Hm Hi). assert (T := solves_U1 o nodes bs w (solve 1%nat) S b (m * n + i)%nat k (pack_lt m i n n Hm Hi)).
  rewrite (time1 o nodes bs w HN HB) in T by assumption. rewrite B in T. apply Rmult_eq_reg_l in T; [|exact (wn i Hi)]. unfold PredSpec.defect1. lra.
Qed.
Lemma picard_defect_2d (w0 p q : nodal) b : solves (n * n * n) (kron [full n M; diagonal n w; diagonal n w]) (solve 2%nat) ->
  rhs2 o ph w (Dv bs nodes) D dt (dX 0%nat) (dX 1%nat) p (initial_condition2 o w (end_values bs) w0) = Ok b -> q = solve 2%nat b ->
  forall m i j k, (m < n)%nat -> (i < n)%nat -> (j < n)%nat -> defect2 dt (dX 0%nat) (dX 1%nat) w0 p q m i j k = 0.
Proof.
  intros S E -> m i j k Hm Hi Hj. destruct (rhs2_rate o ph nodes bs w HV HN HB dt (dX 0%nat) (dX 1%nat) p w0) as [b' [Eb' B]]. rewrite E in Eb'. injection Eb' as <-.
  specialize (B m i j k Hm Hi Hj). assert (L : ((m * n + i) * n + j < n * n * n)%nat) by (repeat apply pack_lt; assumption).
  assert (T := solves_U2 o nodes bs w HN HB (solve 2%nat) S b _ k L).
  rewrite (time2 o nodes bs w HN HB) in T by assumption. rewrite B in T.
  apply Rmult_eq_reg_l in T; [|apply Rmult_integral_contrapositive_currified; [exact (wn i Hi)|exact (wn j Hj)]]. unfold PredSpec.defect2. lra.
Qed.
Lemma last_step ndim l w0 q : view l = Some w0 -> cell false ndim l = Ok (Some (Some q)) ->
  exists p b, close o DG_TOL (n ^ (ndim + 1)) q p /\ rhs o ph w (Dv bs nodes) D dt dX ndim p (initial_condition o w (end_values bs) ndim w0) = Ok b /\ q = solve ndim b.
Proof.
  intros Vl. unfold predictor_cell. rewrite Vl. cbn [option_map bind]. set (nc := _ : res (option nodal)).
  match goal with |- context [picard _ _ _ _ _ ?s _ _] => set (step := s) end.
  set (G := picard_map o ph w (Dv bs nodes) D dt dX solve ndim (initial_condition o w (end_values bs) ndim w0)).
  set (q0 := standard_initial_guess o ndim w0).
  assert (Hs : forall m, (m < DG_IT)%nat -> step (Some (iter G m q0)) = Ok (Some (G (iter G m q0)))).
  { intros m _. unfold step, lift. rewrite VT.
    destruct (picard_map_ok o ph w (Dv bs nodes) D dt dX solve HV (npos o nodes bs w HN HB) ndim (initial_condition o w (end_values bs) ndim w0) (iter G m q0)) as [b [Eb Gb]].
    rewrite Eb. cbn [bind]. unfold G. rewrite <- Gb. reflexivity. }
  intros E. destruct (picard_iter o DG_TOL nan_far (n ^ (ndim + 1))%nat step G nc DG_IT q0 Hs) as [[_ E']|[m [Hm [_ [C E']]]]]; rewrite E in E'; [discriminate|].
  assert (E2 : q = iter G (S m) q0) by congruence. pose proof (iter_S G m q0) as I. rewrite <- E2 in C, I. exists (iter G m q0).
  destruct (picard_map_ok o ph w (Dv bs nodes) D dt dX solve HV (npos o nodes bs w HN HB) ndim (initial_condition o w (end_values bs) ndim w0) (iter G m q0)) as [b [Eb Gb]].
  exists b. split; [exact C|]. split; [exact Eb|]. exact (eq_trans I Gb).
Qed.

(** Whatever the iteration writes satisfies the equations at every node, with the rates of a field within the tolerance of
    the written one. *)
Theorem written_cells_solve_1d l w0 q : view l = Some w0 -> solves (n * n) (kron [full n M; diagonal n w]) (solve 1%nat) ->
  cell false 1%nat l = Ok (Some (Some q)) ->
  exists p, close o DG_TOL (n * n) q p /\ forall m i k, (m < n)%nat -> (i < n)%nat -> defect1 dt (dX 0%nat) w0 p q m i k = 0.
Proof.
  intros Vl S E. destruct (last_step 1%nat l w0 q Vl E) as [p [b [C [Eb Eq]]]]. exists p. split.
  - cbn in C. rewrite Nat.mul_1_r in C. exact C.
  - exact (picard_defect_1d w0 p q b S Eb Eq).
Qed.
Theorem written_cells_solve_2d l w0 q : view l = Some w0 -> solves (n * n * n) (kron [full n M; diagonal n w; diagonal n w]) (solve 2%nat) ->
  cell false 2%nat l = Ok (Some (Some q)) ->
  exists p, close o DG_TOL (n * n * n) q p /\ forall m i j k, (m < n)%nat -> (i < n)%nat -> (j < n)%nat -> defect2 dt (dX 0%nat) (dX 1%nat) w0 p q m i j k = 0.
Proof.
  intros Vl S E. destruct (last_step 2%nat l w0 q Vl E) as [p [b [C [Eb Eq]]]]. exists p. split.
  - cbn in C. rewrite Nat.mul_1_r, Nat.mul_assoc in C. exact C.
  - exact (picard_defect_2d w0 p q b S Eb Eq).
Qed.

(** With STIFF the field of the nonlinear solver satisfies the equations up to the residual it stopped at. *)
Theorem stiff_cells_solve_1d l w0 q eps : view l = Some w0 ->
  (forall f y q, nonlin_solve f y = Ok (Some q) -> exists r, f (Some q) = Ok (Some r) /\ forall s k, (s < n * n)%nat -> Rabs (r s k) <= eps) ->
  cell true 1%nat l = Ok (Some (Some q)) ->
  forall m i k, (m < n)%nat -> (i < n)%nat -> Rabs (w i * defect1 dt (dX 0%nat) w0 q q m i k) <= eps.
Proof.
  intros Vl NS. unfold predictor_cell. rewrite Vl. cbn [option_map bind]. destruct (nonlin_solve _ _) as [y| | |] eqn:E; cbn [bind]; try discriminate.
  intros Ey. injection Ey as ->. destruct (NS _ _ _ E) as [r [Er B]]. unfold lift in Er. rewrite VT in Er. cbn [obj initial_condition] in Er.
  intros m i k Hm Hi. destruct (residual_is_defect_1d dt (dX 0%nat) w0 q) as [ob [Eo H]]. rewrite Eo in Er. cbn [bind] in Er. injection Er as <-.
  rewrite <- H by assumption. apply B, pack_lt; assumption.
Qed.
Theorem stiff_cells_solve_2d l w0 q eps : view l = Some w0 ->
  (forall f y q, nonlin_solve f y = Ok (Some q) -> exists r, f (Some q) = Ok (Some r) /\ forall s k, (s < n * n * n)%nat -> Rabs (r s k) <= eps) ->
  cell true 2%nat l = Ok (Some (Some q)) ->
  forall m i j k, (m < n)%nat -> (i < n)%nat -> (j < n)%nat -> Rabs (w i * w j * defect2 dt (dX 0%nat) (dX 1%nat) w0 q q m i j k) <= eps.
Proof.
  intros Vl NS. unfold predictor_cell. rewrite Vl. cbn [option_map bind]. destruct (nonlin_solve _ _) as [y| | |] eqn:E; cbn [bind]; try discriminate.
  intros Ey. injection Ey as ->. destruct (NS _ _ _ E) as [r [Er B]]. unfold lift in Er. rewrite VT in Er. cbn [obj initial_condition] in Er.
  intros m i j k Hm Hi Hj. destruct (residual_is_defect_2d dt (dX 0%nat) (dX 1%nat) w0 q) as [ob [Eo H]]. rewrite Eo in Er. cbn [bind] in Er. injection Er as <-.
  rewrite <- H by assumption. apply B. repeat apply pack_lt; assumption.
Qed.
End Cell.

(** A field without defect gains over a step, at every node, the step times the mean of its rates. *)
Theorem end_of_step_1d dt dx (w0 p q : nodal) : (forall m i k, (m < n)%nat -> (i < n)%nat -> defect1 dt dx w0 p q m i k = 0) ->
  forall i k, (i < n)%nat -> field1 o bs q 1 (x i) k = w0 i k + dt * rsum n (fun m => w m * rate1 o ph nodes bs dx p m i k).
Proof.
  intros H i k Hi. assert (E : rsum n (fun m => defect1 dt dx w0 p q m i k) = 0) by (apply rsum_zero; intros; apply H; assumption).
  unfold PredSpec.defect1 in E. rewrite rsum_minus, rsum_scal_r, (psi_one o nodes bs w HN HB) in E.
  rewrite (rsum_ext n _ (fun m => dt * (w m * rate1 o ph nodes bs dx p m i k) - w m * Derive (fun t => field1 o bs q t (x i) k) (x m))) in E by (intros; ring).
  rewrite rsum_minus, rsum_scal, (end1 o nodes bs w HN HB) in E by exact Hi. lra.
Qed.
Theorem end_of_step_2d dt dx dy (w0 p q : nodal) : (forall m i j k, (m < n)%nat -> (i < n)%nat -> (j < n)%nat -> defect2 dt dx dy w0 p q m i j k = 0) ->
  forall i j k, (i < n)%nat -> (j < n)%nat -> field2 o bs q 1 (x i) (x j) k = w0 (i * n + j)%nat k + dt * rsum n (fun m => w m * rate2 o ph nodes bs dx dy p m i j k).
Proof.
  intros H i j k Hi Hj. assert (E : rsum n (fun m => defect2 dt dx dy w0 p q m i j k) = 0) by (apply rsum_zero; intros; apply H; assumption).
  unfold PredSpec.defect2 in E. rewrite rsum_minus, rsum_scal_r, (psi_one o nodes bs w HN HB) in E.
  rewrite (rsum_ext n _ (fun m => dt * (w m * rate2 o ph nodes bs dx dy p m i j k) - w m * Derive (fun t => field2 o bs q t (x i) (x j) k) (x m))) in E by (intros; ring).
  rewrite rsum_minus, rsum_scal, (end2 o nodes bs w HN HB) in E by assumption. lra.
Qed.

Lemma noncons_conserved Q y d k : (d < 3)%nat -> conserved o k -> noncons o Q y d k = 0.
Proof. intros Hd Hk. rewrite <- (bdot_spec o HV) by exact Hd. apply (bdot_conserved o HV); exact Hk. Qed.
(** The mean over the cell of a conserved variable (no source, no nonconservative term) changes by the difference of the
    fluxes at the ends of the cell. *)
Theorem mean_of_step_1d dt dx (w0 p q : nodal) k : (forall m i k, (m < n)%nat -> (i < n)%nat -> defect1 dt dx w0 p q m i k = 0) ->
  conserved o k -> (forall Q, source ph Q k = 0) ->
  rsum n (fun i => w i * field1 o bs q 1 (x i) k) =
  rsum n (fun i => w i * w0 i k) - dt / dx * rsum n (fun m => w m * (flux1 o ph bs p m 1 k - flux1 o ph bs p m 0 k)).
Proof.
  intros H Hk S. rewrite (rsum_ext n _ (fun i => w i * w0 i k - dt / dx * rsum n (fun m => w m * (w i * Derive (fun z => flux1 o ph bs p m z k) (x i))))).
  - rewrite rsum_minus, rsum_scal. f_equal. f_equal. rewrite rsum_swap. apply rsum_ext. intros m Hm. rewrite rsum_scal. f_equal.
    apply (mean_slope o nodes bs w HN HB (fun z => flux1 o ph bs p m z k) (fun a => F 0 (p (m * n + a)%nat) k)). intros z. apply (interp1_up o nodes bs HN (fun a => F 0 (p (m * n + a)%nat))).
  - intros i Hi. rewrite (end_of_step_1d dt dx w0 p q H i k Hi). rewrite Rmult_plus_distr_l. unfold Rminus. f_equal.
    rewrite <- !rsum_scal, <- rsum_opp. apply rsum_ext. intros m Hm. unfold rate1. cbv zeta. rewrite S.
    rewrite noncons_conserved by (try lia; exact Hk). unfold Rdiv. ring.
Qed.
Theorem mean_of_step_2d dt dx dy (w0 p q : nodal) k : (forall m i j k, (m < n)%nat -> (i < n)%nat -> (j < n)%nat -> defect2 dt dx dy w0 p q m i j k = 0) ->
  conserved o k -> (forall Q, source ph Q k = 0) ->
  rsum n (fun i => rsum n (fun j => w i * w j * field2 o bs q 1 (x i) (x j) k)) =
  rsum n (fun i => rsum n (fun j => w i * w j * w0 (i * n + j)%nat k))
  - dt / dx * rsum n (fun m => w m * rsum n (fun j => w j * (flux2 o ph bs 0 p m 1 (x j) k - flux2 o ph bs 0 p m 0 (x j) k)))
  - dt / dy * rsum n (fun m => w m * rsum n (fun i => w i * (flux2 o ph bs 1 p m (x i) 1 k - flux2 o ph bs 1 p m (x i) 0 k))).
Proof.
  intros H Hk S.
  set (X := fun m i j => Derive (fun z => flux2 o ph bs 0 p m z (x j) k) (x i)). set (Y := fun m i j => Derive (fun y => flux2 o ph bs 1 p m (x i) y k) (x j)).
  assert (E : forall i j, (i < n)%nat -> (j < n)%nat -> w i * w j * field2 o bs q 1 (x i) (x j) k = w i * w j * w0 (i * n + j)%nat k
      - dt / dx * rsum n (fun m => w m * (w j * (w i * X m i j))) - dt / dy * rsum n (fun m => w m * (w i * (w j * Y m i j)))).
  { intros i j Hi Hj. rewrite (end_of_step_2d dt dx dy w0 p q H i j k Hi Hj). rewrite Rmult_plus_distr_l.
    rewrite <- !rsum_scal. unfold Rminus at 1 2. rewrite Rplus_assoc. f_equal. rewrite <- !rsum_opp, <- rsum_plus. apply rsum_ext. intros m Hm.
    unfold rate2. cbv zeta. rewrite S, !noncons_conserved by (try lia; exact Hk). fold (X m i j) (Y m i j). unfold Rdiv. ring. }
  rewrite (rsum_ext n _ (fun i => rsum n (fun j => w i * w j * w0 (i * n + j)%nat k) - dt / dx * rsum n (fun j => rsum n (fun m => w m * (w j * (w i * X m i j))))
     - dt / dy * rsum n (fun j => rsum n (fun m => w m * (w i * (w j * Y m i j)))))).
  2:{ intros i Hi. rewrite <- !rsum_scal, <- !rsum_minus. apply rsum_ext. intros j Hj. apply E; assumption. }
  rewrite !rsum_minus, !rsum_scal. f_equal; [f_equal|]; f_equal.
  - rewrite (rsum_ext n _ (fun i => rsum n (fun m => rsum n (fun j => w m * (w j * (w i * X m i j)))))) by (intros; apply rsum_swap).
    rewrite rsum_swap. apply rsum_ext. intros m Hm. rewrite rsum_swap, <- rsum_scal. apply rsum_ext. intros j Hj. rewrite !rsum_scal. do 2 f_equal.
    apply (mean_slope o nodes bs w HN HB (fun z => flux2 o ph bs 0 p m z (x j) k) (fun a => F 0 (p (m * (n * n) + (a * n + j))%nat) k)).
    intros z. apply (interp2_x o nodes bs w HN HB (fun s => F 0 (p (m * (n * n) + s)%nat))), Hj.
  - rewrite (rsum_ext n _ (fun i => rsum n (fun m => rsum n (fun j => w m * (w i * (w j * Y m i j)))))) by (intros; apply rsum_swap).
    rewrite rsum_swap. apply rsum_ext. intros m Hm. rewrite <- rsum_scal. apply rsum_ext. intros i Hi. rewrite !rsum_scal. do 2 f_equal.
    apply (mean_slope o nodes bs w HN HB (fun y => flux2 o ph bs 1 p m (x i) y k) (fun a => F 1 (p (m * (n * n) + (i * n + a))%nat) k)).
    intros z. apply (interp2_y o nodes bs w HN HB (fun s => F 1 (p (m * (n * n) + s)%nat))), Hi.
Qed.

(** A solution of the equations that is a polynomial of degree below n in time and along the cell, with a flux that is one
    along the cell, has no defect: it is a root of the residual and the iteration leaves it unchanged. *)
Definition degree_below (d : nat) (f : R -> R) : Prop := exists p, (length p <= d)%nat /\ forall t, f t = evaluate p t.
Definition sample1 (u : R -> R -> nat -> R) : nodal := fun s => u (x (s / n)) (x (s mod n)).
Definition exact1 (dt dx : R) (u : R -> R -> nat -> R) : Prop :=
  (forall z k, degree_below n (fun t => u t z k)) /\ (forall t k, degree_below n (fun z => u t z k)) /\
  forall m k, (m < n)%nat -> exists f, degree_below n f /\
    (forall i, (i < n)%nat -> f (x i) = F 0 (u (x m) (x i)) k) /\
    forall i, (i < n)%nat -> Derive (fun t => u t (x i) k) (x m) =
      dt * (source ph (u (x m) (x i)) k - noncons o (u (x m) (x i)) (fun c => Derive (fun z => u (x m) z c) (x i) / dx) 0 k - Derive f (x i) / dx).

Lemma degree_interp f : degree_below n f -> forall t, f t = evaluate (upoly nodes bs (fun i => f (x i))) t.
Proof.
  intros [p [L E]] t. rewrite E, (b_interp nodes bs (DNd nodes bs w HB) (BPd nodes bs w HB)) by (rewrite HN; exact L).
  rewrite (upoly_eval nodes bs). apply rsum_ext. intros i Hi. now rewrite E.
Qed.
Lemma sample1_at u m i : (i < n)%nat -> sample1 u (m * n + i)%nat = u (x m) (x i).
Proof. intros Hi. unfold sample1. destruct (divmod n m i Hi) as [-> ->]. reflexivity. Qed.

Theorem exact_solutions_solve_1d dt dx u : exact1 dt dx u ->
  let w0 : nodal := fun i => u 0 (x i) in
  (forall m i k, (m < n)%nat -> (i < n)%nat -> defect1 dt dx w0 (sample1 u) (sample1 u) m i k = 0) /\
  forall dX solve, dX 0%nat = dx -> solves (n * n) (kron [full n M; diagonal n w]) (solve 1%nat) ->
    forall r k, (r < n * n)%nat -> picard_map o ph w (Dv bs nodes) D dt dX solve 1 (initial_condition o w (end_values bs) 1 w0) (sample1 u) r k = sample1 u r k.
Proof.
  intros [Pt [Pz Eq]] w0. assert (H : forall m i k, (m < n)%nat -> (i < n)%nat -> defect1 dt dx w0 (sample1 u) (sample1 u) m i k = 0).
  { intros m i k Hm Hi. destruct (Eq m k Hm) as [f [Pf [Ff Ef]]].
    assert (T : forall t k, field1 o bs (sample1 u) t (x i) k = u t (x i) k).
    { intros t c. rewrite (field1_time o nodes bs w HN HB) by exact Hi. rewrite (degree_interp _ (Pt (x i) c) t). cbv beta.
      f_equal. f_equal. apply functional_extensionality. intros a. now rewrite sample1_at. }
    assert (Sp : forall z k, field1 o bs (sample1 u) (x m) z k = u (x m) z k).
    { intros z c. rewrite (field1_space o nodes bs w HN HB) by exact Hm. rewrite (degree_interp _ (Pz (x m) c) z). rewrite !(upoly_eval nodes bs), HN.
      apply rsum_ext. intros a Ha. now rewrite sample1_at. }
    assert (Fl : forall z, flux1 o ph bs (sample1 u) m z k = f z).
    { intros z. unfold flux1. rewrite (interp1_up o nodes bs HN (fun i => F 0 (sample1 u (m * n + i)%nat))). rewrite (degree_interp f Pf z). rewrite !(upoly_eval nodes bs), HN.
      apply rsum_ext. intros a Ha. rewrite sample1_at, Ff by exact Ha. reflexivity. }
    unfold PredSpec.defect1, rate1. cbv zeta. rewrite T. unfold w0. rewrite (Derive_ext (fun t => field1 o bs (sample1 u) t (x i) k) (fun t => u t (x i) k)) by (intros; apply T).
    rewrite (Derive_ext (fun z => flux1 o ph bs (sample1 u) m z k) f) by exact Fl. rewrite sample1_at by exact Hi.
    rewrite (functional_extensionality (fun c => Derive (fun z => field1 o bs (sample1 u) (x m) z c) (x i) / dx) (fun c => Derive (fun z => u (x m) z c) (x i) / dx))
      by (intros c; f_equal; apply Derive_ext; intros; apply Sp).
    rewrite Ef by exact Hi. ring. }
  split; [exact H|]. intros dX solve <- S r k Hr.
  destruct (residual_is_defect_1d dt (dX 0%nat) w0 (sample1 u)) as [ob [Eo Ob]].
  destruct (dg_residual_roots_are_fixed_points_1d o ph nodes bs w (Dv bs nodes) D HV HN HB (solve 1%nat) dt (dX 0%nat) (initial_condition1 o w (end_values bs) w0) (sample1 u) S) as [b [ob' [Eb [Eo' Fx]]]].
  rewrite Eo in Eo'. injection Eo' as <-. unfold picard_map. cbn [rhs initial_condition]. rewrite Eb. apply Fx; [|exact Hr].
  intros s Hs. pose proof (npos o nodes bs w HN HB) as NP. rewrite (Nat.div_mod s n) by lia. rewrite (Nat.mul_comm n).
  assert (A : (s / n < n)%nat) by (apply Nat.div_lt_upper_bound; lia). assert (B : (s mod n < n)%nat) by (apply Nat.mod_upper_bound; lia).
  rewrite Ob, H by assumption. ring.
Qed.
End P.
Print Assumptions residual_is_defect_1d.
Print Assumptions residual_is_defect_2d.
Print Assumptions written_cells_solve_1d.
Print Assumptions written_cells_solve_2d.
Print Assumptions stiff_cells_solve_1d.
Print Assumptions stiff_cells_solve_2d.
Print Assumptions end_of_step_1d.
Print Assumptions end_of_step_2d.
Print Assumptions mean_of_step_1d.
Print Assumptions mean_of_step_2d.
Print Assumptions exact_solutions_solve_1d.

(** A dust of density 10 + z - t carried at unit speed along a cell of unit length during a unit step: it varies in time and
    in space, and meets the hypotheses for two nodes. *)
Definition dust_phys : phys := mkphys (fun _ => 0) (fun _ _ _ => 0) (fun _ _ => 0) 0 (fun _ _ => 0) (fun _ _ => 0) (fun _ _ _ _ => 0) (fun _ x => x).
Definition dust (t z : R) (k : nat) : R := match k with 0%nat | 1%nat | 2%nat => 10 + z - t | 5%nat | 9%nat | 13%nat => 1 | _ => 0 end.
Example dust_case : exists nodes bs w solve, dg_basis nodes bs w /\ length nodes = N shipped /\
  solves (N shipped * N shipped) (kron [full (N shipped) (Mof nodes bs w); diagonal (N shipped) w]) (solve 1%nat) /\
  exact1 shipped dust_phys nodes 1 1 dust /\
  exists r s, sample1 shipped nodes dust r 0%nat <> sample1 shipped nodes dust s 0%nat.
Proof.
  destruct two_node_basis as [x0 [x1 [bs [w [G X]]]]]. destruct (two_node_solver shipped [x0; x1] bs w G eq_refl eq_refl) as [solve Sv].
  exists [x0; x1], bs, w, (fun _ => solve). split; [exact G|]. split; [reflexivity|]. split; [exact Sv|].
  assert (X2 : forall m, (m < 2)%nat -> 0 < nth m [x0; x1] 0 < 1) by (intros [|[|m]] Hm; try lia; cbn [nth]; lra).
  assert (Ev2 : forall a b t, evaluate [a; b] t = a + b * t) by (intros; unfold evaluate; cbn; ring).
  assert (Ev1 : forall a t, evaluate [a] t = a) by (intros; unfold evaluate; cbn; ring).
  assert (Dt : forall t z k, is_derive (fun t => dust t z k) t (match k with 0%nat | 1%nat | 2%nat => - (1) | _ => 0 end)).
  { intros t z k. unfold dust. do 14 (destruct k as [|k]; [auto_derive; [exact I|ring]|]). auto_derive; [exact I|ring]. }
  assert (Dz : forall t z k, is_derive (fun z => dust t z k) z (match k with 0%nat | 1%nat | 2%nat => 1 | _ => 0 end)).
  { intros t z k. unfold dust. do 14 (destruct k as [|k]; [auto_derive; [exact I|ring]|]). auto_derive; [exact I|ring]. }
  split; [split; [|split]|].
  - intros z k. unfold dust. destruct k as [|[|[|k]]]; [exists [10 + z; - (1)]|exists [10 + z; - (1)]|exists [10 + z; - (1)]|];
      try (split; [cbn; lia|intros t; rewrite Ev2; ring]).
    exists [dust 0 z (S (S (S k)))]. split; [cbn; lia|]. intros t. rewrite Ev1. unfold dust. reflexivity.
  - intros t k. unfold dust. destruct k as [|[|[|k]]]; [exists [10 - t; 1]|exists [10 - t; 1]|exists [10 - t; 1]|];
      try (split; [cbn; lia|intros z; rewrite Ev2; ring]).
    exists [dust t 0 (S (S (S k)))]. split; [cbn; lia|]. intros z. rewrite Ev1. unfold dust. reflexivity.
  - intros m k Hm. specialize (X2 m Hm). set (t := nth m [x0; x1] 0) in *.
    exists (fun z => match k with 0%nat | 1%nat | 2%nat => 10 - t + z | 5%nat => 1 | _ => 0 end). split; [|split].
    + destruct k as [|[|[|k]]]; [exists [10 - t; 1]|exists [10 - t; 1]|exists [10 - t; 1]|]; try (split; [cbn; lia|intros z; rewrite Ev2; ring]).
      exists [match k with 2%nat => 1 | _ => 0 end]. split; [cbn; lia|]. intros z. rewrite Ev1. destruct k as [|[|[|k]]]; reflexivity.
    + intros i Hi. assert (Xi : 0 < nth i [x0; x1] 0 < 1) by (destruct i as [|[|i]]; [..|cbn in Hi; lia]; cbn [nth]; lra). set (z := nth i [x0; x1] 0) in *.
      assert (Nz : 10 + z - t <> 0) by lra.
      unfold flux. cbn [VISCOUS THERMAL MULTI shipped pressure sigma dust_phys]. unfold bump, upd.
      do 14 (destruct k as [|k]; [cbn [Nat.eqb Nat.add Nat.mul dust]; field; exact Nz|]). reflexivity.
    + intros i Hi. rewrite (is_derive_unique _ _ _ (Dt _ _ _)). cbn [EqModel.source dust_phys].
      set (u0 := dust t (nth i [x0; x1] 0)).
      assert (U0 : u0 3%nat = 0 /\ u0 4%nat = 0) by (split; reflexivity).
      rewrite (functional_extensionality (fun c => Derive (fun z => dust t z c) (nth i [x0; x1] 0) / 1) (fun c => match c with 0%nat | 1%nat | 2%nat => 1 | _ => 0 end)).
      2:{ intros c. rewrite (is_derive_unique _ _ _ (Dz _ _ _)). unfold Rdiv. rewrite Rinv_1. apply Rmult_1_r. }
      assert (Z : noncons shipped u0 (fun c => match c with 0%nat | 1%nat | 2%nat => 1 | _ => 0 end) 0 k = 0).
      { unfold noncons, Mat3.sum3. destruct k as [|[|[|k]]]; [reflexivity|reflexivity|reflexivity|]. cbn [Nat.add Nat.mul].
        destruct (_ && _)%bool; [ring|]. destruct (_ && _)%bool; ring. }
      rewrite Z. assert (Df : Derive (fun z => match k with 0%nat | 1%nat | 2%nat => 10 - t + z | 5%nat => 1 | _ => 0 end) (nth i [x0; x1] 0) = match k with 0%nat | 1%nat | 2%nat => 1 | _ => 0 end).
      { apply is_derive_unique. do 14 (destruct k as [|k]; [auto_derive; [exact I|ring]|]). auto_derive; [exact I|ring]. }
      rewrite Df. do 3 (destruct k as [|k]; [field|]). field.
  - exists 0%nat, 1%nat. unfold sample1. cbn. lra.
Qed.

(** with a wide enough tolerance the iteration writes the cell, whatever its values: the dust is one case *)
Lemma bounded_rows (f : nat -> nat -> R) a b : exists B, 0 <= B /\ forall r k, (r < a)%nat -> (k < b)%nat -> f r k <= B.
Proof.
  assert (Row : forall r, exists B, 0 <= B /\ forall k, (k < b)%nat -> f r k <= B).
  { intros r. induction b as [|c [B [P H]]]; [exists 0; split; [lra|intros; lia]|]. exists (Rmax B (f r c)). split; [apply (Rle_trans _ B); [exact P|apply Rmax_l]|].
    intros k Hk. destruct (Nat.eq_dec k c) as [-> |]; [apply Rmax_r|]. apply (Rle_trans _ B); [apply H; lia|apply Rmax_l]. }
  induction a as [|c [B [P H]]]; [exists 0; split; [lra|intros; lia]|]. destruct (Row c) as [B' [P' H']]. exists (Rmax B B'). split; [apply (Rle_trans _ B); [exact P|apply Rmax_l]|].
  intros r k Hr Hk. destruct (Nat.eq_dec r c) as [-> |]; [apply (Rle_trans _ B'); [apply H'; exact Hk|apply Rmax_r]|]. apply (Rle_trans _ B); [apply H; lia|apply Rmax_l].
Qed.
Example written_case : exists nodes bs w solve DG_TOL q, dg_basis nodes bs w /\ length nodes = N shipped /\
  solves (N shipped * N shipped) (kron [full (N shipped) (Mof nodes bs w); diagonal (N shipped) w]) (solve 1%nat) /\
  predictor_cell shipped dust_phys w (end_values bs) (Dv bs nodes) (Dmat bs (fun k => nth k nodes 0) w) (Mof nodes bs w) 1 (fun _ => 1) 50 DG_TOL solve
    (fun _ q => Ok q) (fun _ => true) (fun _ _ => false) false false 1 [Some (dust 0 (nth 0 nodes 0)); Some (dust 0 (nth 1 nodes 0))] = Ok (Some (Some q)).
Proof.
  destruct two_node_basis as [x0 [x1 [bs [w [G X]]]]]. destruct (two_node_solver shipped [x0; x1] bs w G eq_refl eq_refl) as [solve Sv].
  set (l := [Some (dust 0 x0); Some (dust 0 x1)]). destruct (view l) as [w0|] eqn:Vl; [|discriminate].
  set (Gm := picard_map shipped dust_phys w (Dv bs [x0; x1]) (Dmat bs (fun k => nth k [x0; x1] 0) w) 1 (fun _ => 1) (fun _ => solve) 1 (initial_condition shipped w (end_values bs) 1 w0)).
  set (q0 := standard_initial_guess shipped 1 w0).
  destruct (bounded_rows (fun r k => Rabs (Gm q0 r k - q0 r k)) (N shipped ^ (1 + 1)) (V shipped)) as [tol [P T]].
  exists [x0; x1], bs, w, (fun _ => solve), tol, (Gm q0). split; [exact G|]. split; [reflexivity|]. split; [exact Sv|].
  destruct (predictor_writes_converged_cells_partial shipped dust_phys w (end_values bs) (Dv bs [x0; x1]) (Dmat bs (fun k => nth k [x0; x1] 0) w) (Mof [x0; x1] bs w)
    1 (fun _ => 1) 50 tol (fun _ => solve) (fun _ q => Ok q) (fun _ => true) (fun _ _ => false) eq_refl ltac:(cbn; lia) 1 l w0 Vl) as [A _]; [reflexivity|].
  apply (A 0%nat); [lia| |intros; lia]. cbn [iter]. intros r k Hr Hk. specialize (T r k Hr Hk). cbv beta in T. fold q0 Gm. pose proof (Rabs_pos (q0 r k)). apply (Rle_trans _ _ _ T). nra.
Qed.
