(** Proofs for RefSpec.v: a new cell depends on its surroundings only. *)
From Coq Require Import Reals Lia Lra ZArith FunctionalExtensionality.
From Verif Require Import Base Options Sum EqModel FvBody FvSpec FvProof PolyModel WenoModel WenoSpec WenoProof WenoProps
  DgModel GridSpec UtilsModel RefSpec RefProof.
Import List ListNotations.
Open Scope nat_scope.

Section Local.
Variable o : options.
Variables (nodes : list R) (bs : list poly).
Variables NODES WGHTS : nat -> R.
Variables ENDVALS DERVALS : nat -> nat -> R.
Variables (SIG : nat -> nat -> R) (LAMS LAMC EPS : R) (inv : stencil -> (nat -> R) -> nat -> R).
Variable wallf : nat -> nat -> num -> num.
Variable ph : phys.
Variable prim : option ((num -> num) * (num -> num)).
Variable predict : nat -> list num -> res (option (nat -> option nodal)).
Variable ode : num -> num.
Variables (SPLIT HALF : bool) (FLUX : nat) (bt : nat -> nat) (dt : R).
Notation N := (Options.N o).
Notation block1 := (block1 N SIG LAMS LAMC EPS inv prim).
Notation block2 := (block2 N SIG LAMS LAMC EPS inv prim).
Notation relaxed := (relaxed ode SPLIT).
Notation extended1 := (extended1 wallf bt).
Notation extended2 := (extended2 wallf bt).
Notation seen1 := (seen1 o DERVALS SIG LAMS LAMC EPS inv wallf ph prim predict ode SPLIT HALF bt dt).
Notation seen2 := (seen2 o DERVALS SIG LAMS LAMC EPS inv wallf ph prim predict ode SPLIT HALF bt dt).
Notation new1 := (new1 o NODES WGHTS ENDVALS DERVALS SIG LAMS LAMC EPS inv wallf ph prim predict ode SPLIT HALF FLUX bt dt).
Notation new2 := (new2 o NODES WGHTS ENDVALS DERVALS SIG LAMS LAMC EPS inv wallf ph prim predict ode SPLIT HALF FLUX bt dt).
Notation raw1 := (raw1 o NODES WGHTS ENDVALS DERVALS SIG LAMS LAMC EPS inv wallf ph prim predict ode SPLIT HALF FLUX bt dt).
Notation raw2 := (raw2 o NODES WGHTS ENDVALS DERVALS SIG LAMS LAMC EPS inv wallf ph prim predict ode SPLIT HALF FLUX bt dt).
Hypothesis HN : length nodes = N.
Hypothesis HW : weno_setup nodes bs inv SIG LAMS LAMC EPS.
Notation N1 := (NN o nodes bs SIG LAMS LAMC EPS inv HN HW).
Notation IE := (inv_ext o nodes bs SIG LAMS LAMC EPS inv HN HW).

Lemma block1_rel E E' z z' : (forall d, (- Z.of_nat N < d < Z.of_nat N)%Z -> E (z + d)%Z = E' (z' + d)%Z) -> alike N (block1 E z) (block1 E' z').
Proof using HN HW.
  intros H s Hs. unfold RefSpec.block1. f_equal. extensionality v. pose proof N1. apply reconstruct_ext; [assumption| |apply IE|exact Hs].
  intros k Hk. replace (z - Z.of_nat N + 1 + Z.of_nat k)%Z with (z + (Z.of_nat k - Z.of_nat N + 1))%Z by lia. replace (z' - Z.of_nat N + 1 + Z.of_nat k)%Z with (z' + (Z.of_nat k - Z.of_nat N + 1))%Z by lia.
  rewrite H by lia. reflexivity.
Qed.
Lemma block2_rel E E' x y x' y' : (forall d e, (- Z.of_nat N < d < Z.of_nat N)%Z -> (- Z.of_nat N < e < Z.of_nat N)%Z -> E (x + d)%Z (y + e)%Z = E' (x' + d)%Z (y' + e)%Z) -> alike (N ^ 2) (block2 E x y) (block2 E' x' y').
Proof using HN HW.
  intros H s Hs. unfold RefSpec.block2. f_equal. extensionality v. pose proof N1. rewrite Nat.pow_2_r in Hs.
  apply reconstruct_ext; [assumption| |apply IE|apply Nat.mod_upper_bound; lia]. intros l Hl. apply reconstruct_ext; [assumption| |apply IE|apply Nat.div_lt_upper_bound; lia].
  intros k Hk.
  replace (x - Z.of_nat N + 1 + Z.of_nat k)%Z with (x + (Z.of_nat k - Z.of_nat N + 1))%Z by lia. replace (x' - Z.of_nat N + 1 + Z.of_nat k)%Z with (x' + (Z.of_nat k - Z.of_nat N + 1))%Z by lia.
  replace (y - Z.of_nat N + 1 + Z.of_nat l)%Z with (y + (Z.of_nat l - Z.of_nat N + 1))%Z by lia. replace (y' - Z.of_nat N + 1 + Z.of_nat l)%Z with (y' + (Z.of_nat l - Z.of_nat N + 1))%Z by lia.
  rewrite H by lia. reflexivity.
Qed.
Lemma predicted_ext ndim q r t : alike (N ^ ndim) q r -> predicted o predict ndim q t = predicted o predict ndim r t.
Proof using.
  clear HN HW.
  intros H. unfold predicted. replace (map (fun s => Some (q s)) (seq 0 (N ^ ndim))) with (map (fun s => Some (r s)) (seq 0 (N ^ ndim))); [reflexivity|].
  apply map_ext_in. intros s Hs. apply in_seq in Hs. rewrite H by lia. reflexivity.
Qed.
Lemma flux_alike d n q r : alike n q r -> alike n (fun s => flux o ph (fun _ => 0%R) (q s) d) (fun s => flux o ph (fun _ => 0%R) (r s) d).
Proof using. clear HN HW. intros H s Hs. cbn beta. rewrite H by exact Hs. reflexivity. Qed.
Lemma half1_ext dx q r : alike N q r -> alike N (half1 o DERVALS ph dt dx q) (half1 o DERVALS ph dt dx r).
Proof using.
  clear HN HW.
  intros H s Hs. unfold half1. extensionality k. rewrite (H s Hs). rewrite (derivs1d_ext o DERVALS _ _ s k (flux_alike 0 _ _ _ H)).
  replace (derivs1d o DERVALS q s) with (derivs1d o DERVALS r s) by (extensionality j; symmetry; apply derivs1d_ext, H). reflexivity.
Qed.
Lemma half2_ext dx dy q r : alike (N ^ 2) q r -> alike (N ^ 2) (half2 o DERVALS ph dt dx dy q) (half2 o DERVALS ph dt dx dy r).
Proof using HN HW.
  pose proof N1 as P. intros H s Hs. unfold half2. extensionality k. rewrite (H s Hs).
  rewrite (derivs2d_ext o P DERVALS _ _ 0 s k Hs (flux_alike 0 _ _ _ H)), (derivs2d_ext o P DERVALS _ _ 1 s k Hs (flux_alike 1 _ _ _ H)).
  replace (derivs2d o DERVALS q 0 s) with (derivs2d o DERVALS r 0 s) by (extensionality j; symmetry; apply derivs2d_ext; assumption).
  replace (derivs2d o DERVALS q 1 s) with (derivs2d o DERVALS r 1 s) by (extensionality j; symmetry; apply derivs2d_ext; assumption). reflexivity.
Qed.
Lemma seen1_rel bt' dx n x m n' x' m' z z' t : (forall d, (- Z.of_nat N < d < Z.of_nat N)%Z -> extended1 n x (z + d) = RefSpec.extended1 wallf bt' n' x' (z' + d)) -> spread1 n m z = spread1 n' m' z' ->
  alike N (seen1 n dx x m z t) (RefSpec.seen1 o DERVALS SIG LAMS LAMC EPS inv wallf ph prim predict ode SPLIT HALF bt' dt n' dx x' m' z' t).
Proof using HN HW.
  intros HE HM. assert (A : alike N (block1 (fun z => relaxed (extended1 n x z)) z) (block1 (fun z => relaxed (RefSpec.extended1 wallf bt' n' x' z)) z')) by (apply block1_rel; intros d Hd; rewrite HE by exact Hd; reflexivity).
  unfold RefSpec.seen1. rewrite <- HM. destruct SPLIT.
  - destruct (_ && _)%bool; [apply half1_ext|]; exact A.
  - rewrite (predicted_ext 1 _ _ t ltac:(rewrite Nat.pow_1_r; exact A)). intros s _. reflexivity.
Qed.
Lemma seen2_rel bt' dx dy nx ny x m nx' ny' x' m' a b a' b' t :
  (forall d e, (- Z.of_nat N < d < Z.of_nat N)%Z -> (- Z.of_nat N < e < Z.of_nat N)%Z -> extended2 nx ny x (a + d) (b + e) = RefSpec.extended2 wallf bt' nx' ny' x' (a' + d) (b' + e)) -> spread2 nx ny m a b = spread2 nx' ny' m' a' b' ->
  alike (N ^ 2) (seen2 nx ny dx dy x m a b t) (RefSpec.seen2 o DERVALS SIG LAMS LAMC EPS inv wallf ph prim predict ode SPLIT HALF bt' dt nx' ny' dx dy x' m' a' b' t).
Proof using HN HW.
  intros HE HM. assert (A : alike (N ^ 2) (block2 (fun a b => relaxed (extended2 nx ny x a b)) a b) (block2 (fun a b => relaxed (RefSpec.extended2 wallf bt' nx' ny' x' a b)) a' b')) by (apply block2_rel; intros d e Hd He; rewrite HE by assumption; reflexivity).
  unfold RefSpec.seen2. rewrite <- HM. destruct SPLIT.
  - destruct (_ && _)%bool; [apply half2_ext|]; exact A.
  - rewrite (predicted_ext 2 _ _ t A). intros s _. reflexivity.
Qed.
Lemma fv1_at nt w dx q m x c k SRC : fv1 o ph NODES WGHTS ENDVALS DERVALS SRC FLUX nt w dx q m x c k = fv1 o ph NODES WGHTS ENDVALS DERVALS SRC FLUX nt w dx (fun i => q (i + c)) (fun i => m (i + c)) (fun i => x (i + c)) 0 k.
Proof using. clear HN HW. reflexivity. Qed.
Lemma fv2_at nt w dx dy q m x a b k SRC : fv2 o ph NODES WGHTS ENDVALS DERVALS SRC FLUX nt w dx dy q m x a b k =
  fv2 o ph NODES WGHTS ENDVALS DERVALS SRC FLUX nt w dx dy (fun i j => q (i + a) (j + b)) (fun i j => m (i + a) (j + b)) (fun i j => x (i + a) (j + b)) 0 0 k.
Proof using. clear HN HW. reflexivity. Qed.
(** two cells, perhaps of different grids, with the same surroundings *)
Lemma raw1_rel bt' dx n x m n' x' m' c c' : let z := Z.of_nat c in let z' := Z.of_nat c' in
  (forall d, (- Z.of_nat N <= d <= Z.of_nat N)%Z -> extended1 n x (z + d) = RefSpec.extended1 wallf bt' n' x' (z' + d)) -> (forall d, (-1 <= d <= 1)%Z -> spread1 n m (z + d) = spread1 n' m' (z' + d)) -> x c = x' c' ->
  raw1 n dx x m c = RefSpec.raw1 o NODES WGHTS ENDVALS DERVALS SIG LAMS LAMC EPS inv wallf ph prim predict ode SPLIT HALF FLUX bt' dt n' dx x' m' c'.
Proof using HN HW.
  intros z z' HE HM HX. pose proof N1 as P. unfold RefSpec.raw1. extensionality k. rewrite fv1_at. symmetry. rewrite fv1_at. symmetry.
  apply fv1_ext; [exact P| | |cbn beta; rewrite !Nat.add_0_l, HX; reflexivity].
  - intros i t Hi _ _. apply seen1_rel.
    + intros d Hd. replace (Z.of_nat (i + c) - 1 + d)%Z with (z + (Z.of_nat i - 1 + d))%Z by lia. replace (Z.of_nat (i + c') - 1 + d)%Z with (z' + (Z.of_nat i - 1 + d))%Z by lia. apply HE. lia.
    + replace (Z.of_nat (i + c) - 1)%Z with (z + (Z.of_nat i - 1))%Z by lia. replace (Z.of_nat (i + c') - 1)%Z with (z' + (Z.of_nat i - 1))%Z by lia. apply HM. lia.
  - intros i Hi. replace (Z.of_nat (i + c) - 1)%Z with (z + (Z.of_nat i - 1))%Z by lia. replace (Z.of_nat (i + c') - 1)%Z with (z' + (Z.of_nat i - 1))%Z by lia. apply HM. lia.
Qed.
Lemma new1_rel bt' dx n x m n' x' m' c c' : let z := Z.of_nat c in let z' := Z.of_nat c' in
  (forall d, (- Z.of_nat N <= d <= Z.of_nat N)%Z -> extended1 n x (z + d) = RefSpec.extended1 wallf bt' n' x' (z' + d)) -> (forall d, (-1 <= d <= 1)%Z -> spread1 n m (z + d) = spread1 n' m' (z' + d)) -> x c = x' c' ->
  new1 n dx x m c = RefSpec.new1 o NODES WGHTS ENDVALS DERVALS SIG LAMS LAMC EPS inv wallf ph prim predict ode SPLIT HALF FLUX bt' dt n' dx x' m' c'.
Proof using HN HW. intros z z' HE HM HX. unfold RefSpec.new1. f_equal. apply raw1_rel; assumption. Qed.
Lemma raw2_rel bt' dx dy nx ny x m nx' ny' x' m' a b a' b' : let y := Z.of_nat a in let w := Z.of_nat b in let y' := Z.of_nat a' in let w' := Z.of_nat b' in
  (forall d e, (Z.abs d <= Z.of_nat N)%Z -> (Z.abs e <= Z.of_nat N)%Z -> (Z.abs d + Z.abs e < 2 * Z.of_nat N)%Z -> extended2 nx ny x (y + d) (w + e) = RefSpec.extended2 wallf bt' nx' ny' x' (y' + d) (w' + e)) ->
  (forall d e, (Z.abs d + Z.abs e <= 1)%Z -> spread2 nx ny m (y + d) (w + e) = spread2 nx' ny' m' (y' + d) (w' + e)) -> x a b = x' a' b' ->
  raw2 nx ny dx dy x m a b = RefSpec.raw2 o NODES WGHTS ENDVALS DERVALS SIG LAMS LAMC EPS inv wallf ph prim predict ode SPLIT HALF FLUX bt' dt nx' ny' dx dy x' m' a' b'.
Proof using HN HW.
  intros y w y' w' HE HM HX. pose proof N1 as P. unfold RefSpec.raw2. extensionality k. rewrite fv2_at. symmetry. rewrite fv2_at. symmetry.
  assert (Q : forall i (c : nat), (Z.of_nat (i + c) - 1)%Z = (Z.of_nat c + (Z.of_nat i - 1))%Z) by lia.
  apply fv2_ext; [exact P| | |cbn beta; rewrite !Nat.add_0_l, HX; reflexivity].
  - intros i j t Hi Hj Hij _ _. apply seen2_rel.
    + intros d e Hd He. rewrite !Q, <- !Z.add_assoc. apply HE; lia.
    + rewrite !Q. apply HM. lia.
  - intros i j Hi Hj Hij. rewrite !Q. apply HM. lia.
Qed.
Lemma new2_rel bt' dx dy nx ny x m nx' ny' x' m' a b a' b' : let y := Z.of_nat a in let w := Z.of_nat b in let y' := Z.of_nat a' in let w' := Z.of_nat b' in
  (forall d e, (Z.abs d <= Z.of_nat N)%Z -> (Z.abs e <= Z.of_nat N)%Z -> (Z.abs d + Z.abs e < 2 * Z.of_nat N)%Z -> extended2 nx ny x (y + d) (w + e) = RefSpec.extended2 wallf bt' nx' ny' x' (y' + d) (w' + e)) ->
  (forall d e, (Z.abs d + Z.abs e <= 1)%Z -> spread2 nx ny m (y + d) (w + e) = spread2 nx' ny' m' (y' + d) (w' + e)) -> x a b = x' a' b' ->
  new2 nx ny dx dy x m a b = RefSpec.new2 o NODES WGHTS ENDVALS DERVALS SIG LAMS LAMC EPS inv wallf ph prim predict ode SPLIT HALF FLUX bt' dt nx' ny' dx dy x' m' a' b'.
Proof using HN HW. intros y w y' w' HE HM HX. unfold RefSpec.new2. f_equal. apply raw2_rel; assumption. Qed.

(** *** the surroundings in terms of the cells of the grid *)
Lemma spread1_is n m z (H : 0 < n) : spread1 n m z = true <-> exists k, k < n /\ m k = true /\ (Z.abs (Z.of_nat k - Z.max 0 (Z.min z (Z.of_nat n - 1))) <= 1)%Z.
Proof using.
  clear HN HW.
  unfold spread1. rewrite existsb_exists. split.
  - intros (k & Hk & E). apply in_seq in Hk. rewrite !Bool.andb_true_iff, !Nat.leb_le in E. destruct E as [[E1 E2] E3]. exists k. repeat split; [lia|exact E1|lia].
  - intros (k & Hk & E1 & E2). exists k. split; [apply in_seq; lia|]. rewrite !Bool.andb_true_iff, !Nat.leb_le. repeat split; [exact E1|lia|lia].
Qed.
Lemma spread1_local n m m' z c : 0 < n -> c < n -> (Z.abs (z - Z.of_nat c) <= 1)%Z -> (forall i, i < n -> (Z.abs (Z.of_nat i - Z.of_nat c) <= 2)%Z -> m i = m' i) -> spread1 n m z = spread1 n m' z.
Proof using.
  clear HN HW.
  intros Hn Hc Hz H. apply Bool.eq_true_iff_eq. rewrite !spread1_is by exact Hn. split; intros (k & Hk & E & D); exists k; repeat split; try assumption; [rewrite <- H|rewrite H]; try assumption; lia.
Qed.
Lemma extended1_local n x x' z c : c < n -> N <= n -> (Z.abs (z - Z.of_nat c) <= Z.of_nat N)%Z -> (bt 0 = 1 -> N <= c) -> (bt 1 = 1 -> c + N < n) ->
  (forall i, i < n -> (Z.abs (Z.of_nat i - Z.of_nat c) <= Z.of_nat N)%Z -> x i = x' i) -> extended1 n x z = extended1 n x' z.
Proof using.
  clear HN HW.
  intros Hc Hn Hz B0 B1 H. unfold RefSpec.extended1. f_equal. unfold extend1, ghost.
  destruct (Z.ltb_spec z 0).
  - destruct (bt 0) as [|[|ty]]; [rewrite H by lia; reflexivity|specialize (B0 eq_refl); lia|]. rewrite H by lia. reflexivity.
  - destruct (Z.ltb_spec z (Z.of_nat n)); [rewrite H by lia; reflexivity|].
    destruct (bt 1) as [|[|ty]]; [rewrite H by lia; reflexivity|specialize (B1 eq_refl); lia|]. rewrite H by lia. reflexivity.
Qed.
Lemma extend1_val {T} (w : nat -> nat -> T -> T) t0 t1 d n (f g : Z -> T) z : (forall y, (0 <= y < n)%Z -> f y = g y) -> (0 < n)%Z -> (- n <= z < 2 * n)%Z -> extend1 T w t0 t1 d n f z = extend1 T w t0 t1 d n g z.
Proof using.
  clear HN HW.
  intros H Hn Hz. unfold extend1, ghost. destruct (Z.ltb_spec z 0).
  - destruct t0 as [|[|]]; rewrite H; try reflexivity; try lia. apply Z.mod_pos_bound, Hn.
  - destruct (Z.ltb_spec z n); [apply H; lia|]. destruct t1 as [|[|]]; rewrite H; try reflexivity; try lia. apply Z.mod_pos_bound, Hn.
Qed.
Lemma dependence1 dx n x x' m m' c : c < n -> N <= n -> (bt 0 = 1 -> N <= c) -> (bt 1 = 1 -> c + N < n) ->
  (forall i, i < n -> (Z.abs (Z.of_nat i - Z.of_nat c) <= Z.of_nat N)%Z -> x i = x' i) -> (forall i, i < n -> (Z.abs (Z.of_nat i - Z.of_nat c) <= 2)%Z -> m i = m' i) ->
  new1 n dx x m c = new1 n dx x' m' c.
Proof using HN HW.
  intros Hc Hn B0 B1 HX HM. pose proof N1. apply new1_rel.
  - intros d Hd. apply (extended1_local n x x' _ c); try assumption. lia.
  - intros d Hd. apply (spread1_local n m m' _ c); try assumption; lia.
  - apply HX; [exact Hc|lia].
Qed.
(** an extended field at z looks at cells no further from a cell than z itself *)
Lemma extend1_near {T} (w : nat -> nat -> T -> T) t0 t1 d n (f g : Z -> T) z c : (0 <= c < n)%Z -> (- n <= z < 2 * n)%Z -> (t0 = 1 -> (0 <= z)%Z) -> (t1 = 1 -> (z < n)%Z) ->
  (forall y, (0 <= y < n)%Z -> (Z.abs (y - c) <= Z.abs (z - c))%Z -> f y = g y) -> extend1 T w t0 t1 d n f z = extend1 T w t0 t1 d n g z.
Proof using.
  clear HN HW. intros Hc Hz B0 B1 H. unfold extend1, ghost. destruct (Z.ltb_spec z 0).
  - destruct t0 as [|[|t0]]; [apply H; lia|specialize (B0 eq_refl); lia|f_equal; apply H; lia].
  - destruct (Z.ltb_spec z n); [apply H; lia|]. destruct t1 as [|[|t1]]; [apply H; lia|specialize (B1 eq_refl); lia|f_equal; apply H; lia].
Qed.
Lemma spread2_is nx ny m a b : spread2 nx ny m a b = true <-> exists k l, k < nx /\ l < ny /\ m k l = true /\ (Z.abs (a - Z.of_nat k) + Z.abs (b - Z.of_nat l) <= 1)%Z.
Proof using.
  clear HN HW. unfold spread2. rewrite existsb_exists. split.
  - intros (k & Hk & E). apply in_seq in Hk. apply existsb_exists in E. destruct E as (l & Hl & E). apply in_seq in Hl. rewrite Bool.andb_true_iff, Z.leb_le in E. exists k, l. repeat split; try lia; apply E.
  - intros (k & l & Hk & Hl & E & D). exists k. split; [apply in_seq; lia|]. apply existsb_exists. exists l. split; [apply in_seq; lia|]. rewrite Bool.andb_true_iff, Z.leb_le. auto.
Qed.
Lemma dependence2 dx dy nx ny x x' m m' a b : a < nx -> b < ny -> N <= nx -> N <= ny -> (bt 0 = 1 -> N <= a) -> (bt 1 = 1 -> a + N < nx) -> (bt 2 = 1 -> N <= b) -> (bt 3 = 1 -> b + N < ny) ->
  (forall i j, i < nx -> j < ny -> let d := Z.abs (Z.of_nat i - Z.of_nat a) in let e := Z.abs (Z.of_nat j - Z.of_nat b) in (d <= Z.of_nat N)%Z -> (e <= Z.of_nat N)%Z -> (d + e < 2 * Z.of_nat N)%Z -> x i j = x' i j) ->
  (forall i j, i < nx -> j < ny -> (Z.abs (Z.of_nat i - Z.of_nat a) + Z.abs (Z.of_nat j - Z.of_nat b) <= 2)%Z -> m i j = m' i j) ->
  new2 nx ny dx dy x m a b = new2 nx ny dx dy x' m' a b.
Proof using HN HW.
  intros Ha Hb Hx Hy B0 B1 B2 B3 HX HM. pose proof N1. apply new2_rel.
  - intros d e Hd He Hde. unfold RefSpec.extended2, extend2. f_equal.
    apply (extend1_near wallf _ _ 1 _ _ _ _ (Z.of_nat b)); [lia|lia|intros E; specialize (B2 E); lia|intros E; specialize (B3 E); lia|]. intros y Hy1 Hy2.
    apply (extend1_near wallf _ _ 0 _ _ _ _ (Z.of_nat a)); [lia|lia|intros E; specialize (B0 E); lia|intros E; specialize (B1 E); lia|]. intros z Hz1 Hz2.
    f_equal. apply HX; cbv zeta; rewrite ?Z2Nat.id by lia; lia.
  - intros d e Hde. apply Bool.eq_true_iff_eq. rewrite !spread2_is. split; intros (k & l & Hk & Hl & E & D); exists k, l; repeat split; try assumption; [rewrite <- HM|rewrite HM]; try assumption; lia.
  - apply HX; cbv zeta; lia.
Qed.

(** *** periodic fields *)
Lemma extend1_periodic {T} (w : nat -> nat -> T -> T) d n (f : Z -> T) z : (0 < n)%Z -> extend1 T w 1 1 d n f z = f (z mod n)%Z.
Proof using.
  clear HN HW. intros Hn. unfold extend1, ghost. destruct (Z.ltb_spec z 0); [reflexivity|]. destruct (Z.ltb_spec z n); [rewrite Z.mod_small by lia; reflexivity|reflexivity].
Qed.
Definition turned (n r c : nat) : nat := (c + r) mod n.
Lemma turned_Z n r z : 0 < n -> Z.of_nat (turned n r (Z.to_nat (z mod Z.of_nat n))) = ((z + Z.of_nat r) mod Z.of_nat n)%Z.
Proof using.
  clear HN HW. intros Hn. unfold turned. pose proof (Z.mod_pos_bound z (Z.of_nat n) ltac:(lia)). rewrite Nat2Z.inj_mod, Nat2Z.inj_add, Z2Nat.id by lia. apply Zplus_mod_idemp_l.
Qed.
Lemma turned_shift n r c d : 0 < n -> ((Z.of_nat c + d + Z.of_nat r) mod Z.of_nat n = (Z.of_nat (turned n r c) + d) mod Z.of_nat n)%Z.
Proof using.
  clear HN HW. intros Hn. unfold turned. rewrite Nat2Z.inj_mod, Nat2Z.inj_add, Zplus_mod_idemp_l. f_equal. lia.
Qed.
Lemma spread1_full n m z : 0 < n -> (forall i, i < n -> m i = true) -> spread1 n m z = true.
Proof using.
  clear HN HW. intros Hn H. apply spread1_is; [exact Hn|]. exists (Z.to_nat (Z.max 0 (Z.min z (Z.of_nat n - 1)))). repeat split; [lia|apply H; lia|lia].
Qed.
Lemma spread2_full nx ny m a b d e : a < nx -> b < ny -> (Z.abs d + Z.abs e <= 1)%Z -> (forall i j, i < nx -> j < ny -> m i j = true) -> spread2 nx ny m (Z.of_nat a + d) (Z.of_nat b + e) = true.
Proof using. clear HN HW. intros Ha Hb D H. apply spread2_is. exists a, b. repeat split; [exact Ha|exact Hb|apply H; assumption|lia]. Qed.
Lemma raw_translation1 dx n x m r c : c < n -> bt 0 = 1 -> bt 1 = 1 -> (forall i, i < n -> m i = true) ->
  raw1 n dx (fun i => x (turned n r i)) m c = raw1 n dx x m (turned n r c).
Proof using HN HW.
  intros Hc B0 B1 HM. assert (Hn : 0 < n) by lia. apply raw1_rel.
  - intros d _. unfold RefSpec.extended1. rewrite B0, B1, !extend1_periodic by lia. do 3 f_equal. apply Nat2Z.inj. rewrite turned_Z by exact Hn.
    rewrite Z2Nat.id by (apply Z.mod_pos_bound; lia). apply turned_shift, Hn.
  - intros d _. rewrite !spread1_full by assumption. reflexivity.
  - reflexivity.
Qed.
Lemma translation1 dx n x m r c : c < n -> bt 0 = 1 -> bt 1 = 1 -> (forall i, i < n -> m i = true) ->
  new1 n dx (fun i => x (turned n r i)) m c = new1 n dx x m (turned n r c).
Proof using HN HW. intros Hc B0 B1 HM. unfold RefSpec.new1. rewrite raw_translation1 by assumption. reflexivity. Qed.
Lemma raw_translation2 dx dy nx ny x m r s a b : a < nx -> b < ny -> (r = 0 \/ bt 0 = 1 /\ bt 1 = 1) -> (s = 0 \/ bt 2 = 1 /\ bt 3 = 1) -> (forall i j, i < nx -> j < ny -> m i j = true) -> N <= nx -> N <= ny ->
  raw2 nx ny dx dy (fun i j => x (turned nx r i) (turned ny s j)) m a b = raw2 nx ny dx dy x m (turned nx r a) (turned ny s b).
Proof using HN HW.
  intros Ha Hb B0 B2 HM Nx Ny. assert (Hx : 0 < nx) by lia. assert (Hy : 0 < ny) by lia.
  assert (T0 : forall n i, i < n -> turned n 0 i = i) by (intros n i Hi; unfold turned; rewrite Nat.add_0_r; apply Nat.mod_small, Hi).
  assert (K : forall n r c, 0 < n -> turned n r c < n) by (intros; unfold turned; apply Nat.mod_upper_bound; lia).
  assert (X : forall (T : Type) (w : nat -> nat -> T -> T) t0 t1 dd n r c d (f : nat -> T), 0 < n -> c < n -> N <= n -> (Z.abs d <= Z.of_nat N)%Z -> r = 0 \/ t0 = 1 /\ t1 = 1 ->
    extend1 T w t0 t1 dd (Z.of_nat n) (fun y => f (turned n r (Z.to_nat y))) (Z.of_nat c + d) = extend1 T w t0 t1 dd (Z.of_nat n) (fun y => f (Z.to_nat y)) (Z.of_nat (turned n r c) + d)).
  { intros T w t0 t1 dd n r' c d f Hn Hc Nn Hd [->|[-> ->]].
    - rewrite T0 by exact Hc. apply extend1_val; [|lia|lia]. intros y Hy'. rewrite T0 by lia. reflexivity.
    - rewrite !extend1_periodic by lia. f_equal. apply Nat2Z.inj. rewrite turned_Z by exact Hn. rewrite Z2Nat.id by (apply Z.mod_pos_bound; lia). apply turned_shift, Hn. }
  apply raw2_rel.
  - intros d e Hd He _. unfold RefSpec.extended2, extend2. f_equal.
    rewrite (X num wallf (bt 2) (bt 3) 1 ny s b e (fun j => extend1 num wallf (bt 0) (bt 1) 0 (Z.of_nat nx) (fun x' => Some (x (turned nx r (Z.to_nat x')) j)) (Z.of_nat a + d)%Z) Hy Hb Ny He B2).
    f_equal. extensionality y. apply (X num wallf (bt 0) (bt 1) 0 nx r a d (fun i => Some (x i (Z.to_nat y))) Hx Ha Nx Hd B0).
  - intros d e Hde. rewrite !spread2_full by (try assumption; apply K; assumption). reflexivity.
  - reflexivity.
Qed.
Lemma translation2 dx dy nx ny x m r s a b : a < nx -> b < ny -> (r = 0 \/ bt 0 = 1 /\ bt 1 = 1) -> (s = 0 \/ bt 2 = 1 /\ bt 3 = 1) -> (forall i j, i < nx -> j < ny -> m i j = true) -> N <= nx -> N <= ny ->
  new2 nx ny dx dy (fun i j => x (turned nx r i) (turned ny s j)) m a b = new2 nx ny dx dy x m (turned nx r a) (turned ny s b).
Proof using HN HW. intros Ha Hb B0 B2 HM Nx Ny. unfold RefSpec.new2. rewrite raw_translation2 by assumption. reflexivity. Qed.

(** the functions give numbers in the step of one grid if every surrounding of one of its cells occurs in another grid, in the step of which they do *)
Variable valid : nodal -> bool.
Notation met1 := (met1 o NODES WGHTS ENDVALS DERVALS SIG LAMS LAMC EPS inv wallf ph prim predict ode SPLIT HALF FLUX bt dt valid).
Notation met2 := (met2 o NODES WGHTS ENDVALS DERVALS SIG LAMS LAMC EPS inv wallf ph prim predict ode SPLIT HALF FLUX bt dt valid).
Lemma met1_from dx n x m n' x' m' :
  (forall z, (- Z.of_nat N <= z < Z.of_nat n + Z.of_nat N)%Z -> exists z', (- Z.of_nat N <= z' < Z.of_nat n' + Z.of_nat N)%Z /\ extended1 n x z = extended1 n' x' z') ->
  (forall c, c < n -> exists c', c' < n' /\ x c = x' c' /\ raw1 n dx x m c = raw1 n' dx x' m' c') ->
  (forall z, (-1 <= z <= Z.of_nat n)%Z -> spread1 n m z = true -> exists z', (-1 <= z' <= Z.of_nat n')%Z /\ spread1 n' m' z' = true /\
     forall d, (- Z.of_nat N < d < Z.of_nat N)%Z -> extended1 n x (z + d) = extended1 n' x' (z' + d)) ->
  met1 n' dx x' m' -> met1 n dx x m.
Proof using HN HW.
  intros H1 H2 H3 HM. unfold RefSpec.met1 in *. destruct SPLIT.
  - destruct HM as (M1 & M2 & M3 & M4). split; [|split; [|split]].
    + intros z Hz. destruct (H1 z Hz) as (z' & Hz' & ->). apply M1, Hz'.
    + intros c Hc. destruct (H2 c Hc) as (c' & Hc' & -> & _). apply M2, Hc'.
    + intros c Hc. destruct (H2 c Hc) as (c' & Hc' & _ & ->). apply M3, Hc'.
    + intros HH z q Hz Hs Hq. destruct (H3 z Hz Hs) as (z' & Hz' & Hs' & HE). apply (M4 HH z' q Hz' Hs'). intros s Hs1. rewrite (Hq s Hs1). apply block1_rel; [|exact Hs1]. intros d Hd. rewrite HE by exact Hd. reflexivity.
  - intros z Hz Hs. destruct (H3 z Hz Hs) as (z' & Hz' & Hs' & HE). destruct (HM z' Hz' Hs') as (f & E & F). exists f. split; [|exact F]. rewrite <- E. f_equal. apply map_ext_in. intros s Hs1. apply in_seq in Hs1. f_equal.
    apply block1_rel; [exact HE|]. rewrite Nat.pow_1_r in Hs1. lia.
Qed.
Lemma met2_from dx dy nx ny x m nx' ny' x' m' :
  (forall a b, (- Z.of_nat N <= a < Z.of_nat nx + Z.of_nat N)%Z -> (- Z.of_nat N <= b < Z.of_nat ny + Z.of_nat N)%Z -> exists a' b', (- Z.of_nat N <= a' < Z.of_nat nx' + Z.of_nat N)%Z /\ (- Z.of_nat N <= b' < Z.of_nat ny' + Z.of_nat N)%Z /\
     extended2 nx ny x a b = extended2 nx' ny' x' a' b') ->
  (forall a b, a < nx -> b < ny -> exists a' b', a' < nx' /\ b' < ny' /\ x a b = x' a' b' /\ raw2 nx ny dx dy x m a b = raw2 nx' ny' dx dy x' m' a' b') ->
  (forall a b, (-1 <= a <= Z.of_nat nx)%Z -> (-1 <= b <= Z.of_nat ny)%Z -> spread2 nx ny m a b = true -> exists a' b', (-1 <= a' <= Z.of_nat nx')%Z /\ (-1 <= b' <= Z.of_nat ny')%Z /\ spread2 nx' ny' m' a' b' = true /\
     forall d e, (- Z.of_nat N < d < Z.of_nat N)%Z -> (- Z.of_nat N < e < Z.of_nat N)%Z -> extended2 nx ny x (a + d) (b + e) = extended2 nx' ny' x' (a' + d) (b' + e)) ->
  met2 nx' ny' dx dy x' m' -> met2 nx ny dx dy x m.
Proof using HN HW.
  intros H1 H2 H3 HM. unfold RefSpec.met2 in *. destruct SPLIT.
  - destruct HM as (M1 & M2 & M3 & M4). split; [|split; [|split]].
    + intros a b Ha Hb. destruct (H1 a b Ha Hb) as (a' & b' & Ha' & Hb' & ->). apply M1; assumption.
    + intros a b Ha Hb. destruct (H2 a b Ha Hb) as (a' & b' & Ha' & Hb' & -> & _). apply M2; assumption.
    + intros a b Ha Hb. destruct (H2 a b Ha Hb) as (a' & b' & Ha' & Hb' & _ & ->). apply M3; assumption.
    + intros HH a b q Ha Hb Hs Hq. destruct (H3 a b Ha Hb Hs) as (a' & b' & Ha' & Hb' & Hs' & HE). apply (M4 HH a' b' q Ha' Hb' Hs'). intros s Hs1. rewrite (Hq s Hs1). apply block2_rel; [|exact Hs1]. intros d e Hd He. rewrite HE by assumption. reflexivity.
  - intros a b Ha Hb Hs. destruct (H3 a b Ha Hb Hs) as (a' & b' & Ha' & Hb' & Hs' & HE). destruct (HM a' b' Ha' Hb' Hs') as (f & E & F). exists f. split; [|exact F]. rewrite <- E. f_equal. apply map_ext_in. intros s Hs1. apply in_seq in Hs1. f_equal.
    apply block2_rel; [exact HE|lia].
Qed.
Lemma met_translation1 dx n x m r : 0 < n -> bt 0 = 1 -> bt 1 = 1 -> (forall i, i < n -> m i = true) -> met1 n dx x m -> met1 n dx (fun i => x (turned n r i)) m.
Proof using HN HW.
  intros Hn B0 B1 HM. apply met1_from.
  - intros z _. exists ((z + Z.of_nat r) mod Z.of_nat n)%Z. pose proof (Z.mod_pos_bound (z + Z.of_nat r) (Z.of_nat n) ltac:(lia)) as Bd. split; [lia|].
    unfold RefSpec.extended1. rewrite B0, B1, !extend1_periodic by lia. do 3 f_equal. apply Nat2Z.inj. rewrite turned_Z, Zmod_mod by exact Hn. rewrite Z2Nat.id by lia. reflexivity.
  - intros c Hc. exists (turned n r c). split; [apply Nat.mod_upper_bound; lia|]. split; [reflexivity|]. apply raw_translation1; assumption.
  - intros z _ _. exists ((z + Z.of_nat r) mod Z.of_nat n)%Z. pose proof (Z.mod_pos_bound (z + Z.of_nat r) (Z.of_nat n) ltac:(lia)) as Bd. split; [lia|]. split; [apply spread1_full; assumption|]. intros d _.
    unfold RefSpec.extended1. rewrite B0, B1, !extend1_periodic by lia. do 3 f_equal. apply Nat2Z.inj. rewrite turned_Z by exact Hn. rewrite Z2Nat.id by (apply Z.mod_pos_bound; lia).
    rewrite Zplus_mod_idemp_l. f_equal. lia.
Qed.
(** where a row of a grid that is turned by r cells lies in the grid *)
Definition place (n r : nat) (z : Z) : Z := if Nat.eqb r 0 then z else ((z + Z.of_nat r) mod Z.of_nat n)%Z.
Lemma extend_place (T : Type) (w : nat -> nat -> T -> T) t0 t1 dd n r z d (f : nat -> T) : 0 < n -> N <= n -> (- Z.of_nat N <= z + d < Z.of_nat n + Z.of_nat N)%Z -> r = 0 \/ t0 = 1 /\ t1 = 1 ->
  extend1 T w t0 t1 dd (Z.of_nat n) (fun y => f (turned n r (Z.to_nat y))) (z + d) = extend1 T w t0 t1 dd (Z.of_nat n) (fun y => f (Z.to_nat y)) (place n r z + d).
Proof using.
  clear HN HW. intros Hn Nn Hd C. unfold place. destruct (Nat.eqb_spec r 0) as [->|R0].
  - apply extend1_val; [|lia|lia]. intros y Hy'. unfold turned. rewrite Nat.add_0_r, Nat.mod_small by lia. reflexivity.
  - destruct C as [->|[-> ->]]; [contradiction|]. rewrite !extend1_periodic by lia. f_equal. apply Nat2Z.inj. rewrite turned_Z by exact Hn. rewrite Z2Nat.id by (apply Z.mod_pos_bound; lia).
    rewrite Zplus_mod_idemp_l. f_equal. lia.
Qed.
Lemma place_range n r z k : 0 < n -> (0 <= k)%Z -> (- k <= z < Z.of_nat n + k)%Z -> (- k <= place n r z < Z.of_nat n + k)%Z.
Proof using. clear HN HW. intros Hn Hk Hz. unfold place. destruct (Nat.eqb r 0); [exact Hz|]. pose proof (Z.mod_pos_bound (z + Z.of_nat r) (Z.of_nat n) ltac:(lia)). lia. Qed.
Lemma spread2_place nx ny m r s a b : 0 < nx -> 0 < ny -> (forall i j, i < nx -> j < ny -> m i j = true) -> spread2 nx ny m a b = true -> spread2 nx ny m (place nx r a) (place ny s b) = true.
Proof using.
  clear HN HW. intros Hx Hy HM HS. apply spread2_is in HS. destruct HS as (k & l & Hk & Hl & _ & D). apply spread2_is. unfold place.
  assert (Z1 : forall n z r, 0 < n -> exists j, j < n /\ ((z + Z.of_nat r) mod Z.of_nat n)%Z = Z.of_nat j).
  { intros n z r' Hn. exists (Z.to_nat ((z + Z.of_nat r') mod Z.of_nat n)). pose proof (Z.mod_pos_bound (z + Z.of_nat r') (Z.of_nat n) ltac:(lia)). split; lia. }
  destruct (Nat.eqb r 0), (Nat.eqb s 0).
  - exists k, l. repeat split; auto.
  - destruct (Z1 ny b s Hy) as (j & Hj & ->). exists k, j. repeat split; auto. lia.
  - destruct (Z1 nx a r Hx) as (i & Hi & ->). exists i, l. repeat split; auto. lia.
  - destruct (Z1 nx a r Hx) as (i & Hi & ->). destruct (Z1 ny b s Hy) as (j & Hj & ->). exists i, j. repeat split; auto. lia.
Qed.
Lemma met_translation2 dx dy nx ny x m r s : 0 < nx -> 0 < ny -> (r = 0 \/ bt 0 = 1 /\ bt 1 = 1) -> (s = 0 \/ bt 2 = 1 /\ bt 3 = 1) -> (forall i j, i < nx -> j < ny -> m i j = true) -> N <= nx -> N <= ny ->
  met2 nx ny dx dy x m -> met2 nx ny dx dy (fun i j => x (turned nx r i) (turned ny s j)) m.
Proof using HN HW.
  intros Hx Hy B0 B2 HM Nx Ny. pose proof N1 as P1.
  assert (XE : forall a b d e, (- Z.of_nat N <= a + d < Z.of_nat nx + Z.of_nat N)%Z -> (- Z.of_nat N <= b + e < Z.of_nat ny + Z.of_nat N)%Z ->
    extended2 nx ny (fun i j => x (turned nx r i) (turned ny s j)) (a + d) (b + e) = extended2 nx ny x (place nx r a + d) (place ny s b + e)).
  { intros a b d e Ha Hb. unfold RefSpec.extended2, extend2. f_equal.
    rewrite (extend_place num wallf (bt 2) (bt 3) 1 ny s b e (fun j => extend1 num wallf (bt 0) (bt 1) 0 (Z.of_nat nx) (fun x' => Some (x (turned nx r (Z.to_nat x')) j)) (a + d)%Z) Hy Ny Hb B2).
    f_equal. extensionality y. apply (extend_place num wallf (bt 0) (bt 1) 0 nx r a d (fun i => Some (x i (Z.to_nat y))) Hx Nx Ha B0). }
  apply met2_from.
  - intros a b Ha Hb. exists (place nx r a), (place ny s b). split; [apply place_range; lia|]. split; [apply place_range; lia|].
    pose proof (XE a b 0%Z 0%Z ltac:(lia) ltac:(lia)) as Q. rewrite !Z.add_0_r in Q. exact Q.
  - intros a b Ha Hb. exists (turned nx r a), (turned ny s b). split; [apply Nat.mod_upper_bound; lia|]. split; [apply Nat.mod_upper_bound; lia|]. split; [reflexivity|]. apply raw_translation2; assumption.
  - intros a b Ha Hb HS. exists (place nx r a), (place ny s b). pose proof (place_range nx r a 1 Hx ltac:(lia) ltac:(lia)). pose proof (place_range ny s b 1 Hy ltac:(lia) ltac:(lia)). split; [lia|]. split; [lia|].
    split; [apply spread2_place; assumption|]. intros d e Hd He. apply XE; lia.
Qed.
End Local.
