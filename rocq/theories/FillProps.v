(** Properties C41 to C46 and C70: interfaces between materials and the filling of ghost cells. *)
From Coq Require Import Reals ZArith Lra Psatz Permutation.
From Verif Require Import Base Options Mat3 PhysModel FmmModel LevelSetModel UtilsModel UtilsProof FillModel FmmSpec FmmProps FmmProof6 FillSpec FillProof FillProof2 FillProof3 FillProof4 FillProof5 FillProof6 FillProof7 FillProof8.
Import List ListNotations.
Open Scope nat_scope.

(** [b] has [n] initialised slots, with values [f] *)
Definition stores {A} (n : nat) (b : buf A) (f : nat -> A) : Prop := blen b = n /\ forall i, i < n -> rd b i = Ok (f i).
(** a level set, or a field, as an array *)
Definition array {A} (n : nat) (f : nat -> A) : buf A := mkbuf n (fun i => Some (f i)).
(** a field by cell *)
Definition on {A} (nX : list nat) (f : nat -> A) : list nat -> A := fun c => f (flat nX c).

Lemma stores_tot {A} n (b : buf A) f : stores n b f <-> tot n b f.
Proof.
  split; intros [L H]; split; try exact L; intros i Hi.
  - apply H, rd_inv in Hi. apply Hi.
  - apply rd_ok; [lia|apply H; exact Hi].
Qed.

(** ** C41 *)
Theorem interface_cells_1d nx (P : nat -> R) :
  exists m, find_interface_cells (array nx P) [nx] = Ok m /\ blen m = nx /\
  forall c, inside [nx] c -> exists z, rd m (flat [nx] c) = Ok z /\ label_1d [nx] (on [nx] P) c z.
Proof. exact (interface_1d_labels nx P). Qed.
Theorem interface_cells_2d nx ny (P : nat -> R) :
  exists m, find_interface_cells (array (nx * ny) P) [nx; ny] = Ok m /\ blen m = nx * ny /\
  forall c, inside [nx; ny] c -> exists z, rd m (flat [nx; ny] c) = Ok z /\ label_2d [nx; ny] (on [nx; ny] P) c z.
Proof. exact (interface_2d_labels nx ny P). Qed.
Print Assumptions interface_cells_1d.
Print Assumptions interface_cells_2d.

(** the two sides of an interface in one dimension, and a cell away from it *)
Example interface_cells_case : exists m, find_interface_cells (array 3 (fun i => INR i - 1/2)%R) [3] = Ok m /\
  rd m 0 = Ok (-1)%Z /\ rd m 1 = Ok 1%Z /\ rd m 2 = Ok 0%Z.
Proof.
  destruct (interface_cells_1d 3 (fun i => INR i - 1/2)%R) as [m [E [L H]]]. exists m. split; [exact E|].
  assert (A01 : adjacent [3] [0] [1]) by (split; [cbn; lia|exists 0; left; constructor]).
  assert (A10 : adjacent [3] [1] [0]) by (split; [cbn; lia|exists 0; right; constructor]).
  split; [|split].
  - destruct (H [0] ltac:(cbn; lia)) as [z [Z1 [_ [Z2 _]]]]. cbn [flat cells Nat.mul Nat.add] in Z1. rewrite Z1. f_equal. apply Z2; [exists [1]; split; [exact A01|]|]; unfold on; cbn; lra.
  - destruct (H [1] ltac:(cbn; lia)) as [z [Z1 [Z2 _]]]. cbn [flat cells Nat.mul Nat.add] in Z1. rewrite Z1. f_equal. apply Z2; [exists [0]; split; [exact A10|]|]; unfold on; cbn; lra.
  - destruct (H [2] ltac:(cbn; lia)) as [z [Z1 [_ [_ Z2]]]]. cbn [flat cells Nat.mul Nat.add] in Z1. rewrite Z1. f_equal. apply Z2. intros [c' [[I [d [N|N]]] Q]].
    + inversion N; subst; [cbn in I; lia|]. match goal with X : next _ [] _ |- _ => inversion X end.
    + inversion N; subst; [unfold on in Q; cbn in Q; lra|]. match goal with X : next _ _ [] |- _ => inversion X end.
Qed.

(** ** C42 *)
Section C42.
Variables (o : options) (dX : nat -> R) (nX : list nat) (dphi : nat -> nat -> R) (G0 : nat -> vec) (M0 : nat -> Z).
(** the layer labels are 1, the cells to fill 0, isolated cells -2 *)
Definition layer_cell (c : list nat) : Prop := M0 (flat nX c) = 1%Z.
Definition empty_cell (c : list nat) : Prop := M0 (flat nX c) = 0%Z.
(** a cell of the lowest row or column from which the code steps to itself *)
Definition edge_cell (c : list nat) : Prop := inside nX c /\ (M0 (flat nX c) = 0%Z \/ M0 (flat nX c) = (-2)%Z) /\
  exists d, d < List.length nX /\ nth d c 0 = 0 /\ (length_of (List.length nX) (dphi (flat nX c)) / 2 < dphi (flat nX c) d)%R.
(** [q] has the material components of a cell of the layer, or of a lower-edge cell, as they were before *)
Definition from_layer (q : vec) : Prop := exists c, inside nX c /\ (layer_cell c \/ edge_cell c) /\
  forall k, k < V o - LSET o -> q k = G0 (flat nX c) k.

Theorem fill_layers g m g' m' :
  List.length nX = 1 \/ (List.length nX = 2 /\ 2 <= nth 1 nX 0) ->
  (forall d, d < List.length nX -> (0 < dX d)%R) ->
  stores (cells nX) g G0 -> stores (cells nX) m M0 -> (forall c, inside nX c -> (M0 (flat nX c) <= 1)%Z) ->
  fill_neighbor_cells o dX nX dphi (g, m) = Ok (g', m') ->
  exists G M, stores (cells nX) g' G /\ stores (cells nX) m' M /\
  forall c, inside nX c -> let i := flat nX c in
    (* labels: the distance to the layer *)
    (M0 i <> 0%Z -> M i = M0 i) /\
    (M0 i = 0%Z -> forall k, k < 10 * Options.N o -> reaches nX layer_cell empty_cell k c -> M i = Z.of_nat (k + 1)) /\
    (M0 i = 0%Z -> (forall k, k < 10 * Options.N o -> ~ walk nX layer_cell empty_cell k c) -> M i = 0%Z) /\
    (* values *)
    (forall k, V o - LSET o <= k -> G i k = G0 i k) /\
    (M0 i <> 0%Z -> M0 i <> (-2)%Z -> forall k, G i k = G0 i k) /\
    (M i = 0%Z -> forall k, G i k = G0 i k) /\
    (M0 i = 0%Z -> M i <> 0%Z -> from_layer (G i)) /\
    (M0 i = (-2)%Z -> (forall k, G i k = G0 i k) \/ from_layer (G i)) /\
    (M0 i = (-2)%Z -> List.length nX = 2 -> (exists c', adjacent nX c c' /\ (1 <= M (flat nX c') < Z.of_nat (10 * Options.N o))%Z) -> from_layer (G i)).
Proof.
  intros D HdX Sg Sm Hle E. assert (D12 : dim12 nX) by (unfold dim12; tauto). rewrite cells_size in *. apply stores_tot in Sg, Sm.
  assert (Hle' : forall c, c < size_ nX -> (M0 c <= 1)%Z) by (intros c Hc; destruct (flat_surj nX c Hc) as [C [HC <-]]; auto).
  destruct (all_rounds o dX nX dphi D12 M0 G0 Hle' g m g' m' Sg Sm E) as [G [M [TG [TM [HV [HB HI]]]]]].
  exists G, M. rewrite !stores_tot. split; [exact TG|]. split; [exact TM|].
  assert (FL : forall q, filled o dX nX dphi M0 G0 q -> from_layer q).
  { intros q [s [[Hs Ks] Hq]]. destruct (flat_surj nX s Hs) as [C [HC EC]]. subst s. exists C. split; [exact HC|]. split; [|exact Hq].
    destruct Ks as [Ks|[Ks1 Ks2]]; [left; exact Ks|right]. split; [exact HC|]. split.
    - apply Bool.orb_true_iff in Ks1. rewrite !Z.eqb_eq in Ks1. exact Ks1.
    - apply (stuck_edge dX nX C D12 HdX HC dphi); [|exact Ks2]. intros Q. destruct D as [D|[_ D]]; [congruence|exact D]. }
  intros c Hc i. assert (Hi : i < size_ nX) by (apply flat_lt; exact Hc). destruct (HB c Hc) as [B1 B2]. fold i in B1, B2.
  assert (KEQ : 1 + (10 * Options.N o - 1) = 10 * Options.N o \/ Options.N o = 0) by lia.
  split; [exact B1|]. split; [|split; [|split; [|split; [|split; [|split; [|split]]]]]].
  - intros Z0 k Hk [W Wm]. destruct (B2 Z0) as [[j [Hj [EM [W1 W2]]]]|[_ N]].
    + rewrite EM. f_equal. assert (j <= k) by (apply W2; exact W). assert (k <= j) by (apply Wm; exact W1). lia.
    + exfalso. apply (N k); [lia|exact W].
  - intros Z0 N. destruct (B2 Z0) as [[j [Hj [EM [W1 W2]]]]|[EM _]]; [|exact EM]. exfalso. apply (N j); [lia|exact W1].
  - intros k Hk. apply (v_tl _ _ _ _ _ _ _ _ HV i Hi k Hk).
  - intros N1 N2 k. destruct (v_keep _ _ _ _ _ _ _ _ HV i Hi) as [-> _]; [|reflexivity].
    apply Bool.orb_false_iff. rewrite !Z.eqb_neq. auto.
  - intros Z0 k. destruct (v_zero _ _ _ _ _ _ _ _ HV i Hi Z0) as [_ ->]. reflexivity.
  - intros Z0 N. apply FL. apply (v_src _ _ _ _ _ _ _ _ HV i Hi). destruct (B2 Z0) as [[j [Hj [EM _]]]|[EM _]]; [lia|contradiction].
  - intros Z2. assert (EM : M i = (-2)%Z) by (rewrite B1; [exact Z2|rewrite Z2; discriminate]).
    destruct (v_iso _ _ _ _ _ _ _ _ HV i Hi EM) as [_ [->|F]]; [left; reflexivity|right; apply FL; exact F].
  - intros Z2 D2 [c' [A Hm]]. apply FL. apply (HI i (flat nX c') Hi D2 Z2); [|lia]. apply (adj_nbs nX c _ D12 Hc). exists c'. auto.
Qed.
End C42.
Print Assumptions fill_layers.

(** ** C43 *)
(** filling the layers: every cell that is reached from the layer around the material, through cells to be filled, has a gradient, and on the upper edges it does not point
    backwards *)
Theorem fill_neighbor_safe_partial o dX nX dphi (G0 : nat -> vec) (M0 : nat -> Z) g m :
  List.length nX = 1 \/ List.length nX = 2 -> (forall d, d < List.length nX -> (0 < dX d)%R) ->
  stores (cells nX) g G0 -> stores (cells nX) m M0 -> (forall c, inside nX c -> (M0 (flat nX c) <= 1)%Z) ->
  (forall c n, walk nX (layer_cell nX M0) (fun c => M0 (flat nX c) = 0%Z \/ M0 (flat nX c) = (-2)%Z) (S n) c ->
     let gr := dphi (flat nX c) in let len := length_of (List.length nX) gr in
     (0 < len)%R /\ forall d, d < List.length nX -> nth d c 0 + 1 = nth d nX 0 -> (- (len / 2) < gr d)%R) ->
  exists g' m', fill_neighbor_cells o dX nX dphi (g, m) = Ok (g', m').
Proof.
  intros D12 HdX Sg Sm Hle HG. rewrite cells_size in *. apply stores_tot in Sg, Sm.
  assert (Hle' : forall c, c < size_ nX -> (M0 c <= 1)%Z) by (intros c Hc; destruct (flat_surj nX c Hc) as [C [HC <-]]; auto).
  apply (rounds_safe o dX nX dphi D12 M0 G0); try assumption.
  set (free := fun c => M0 (flat nX c) = 0%Z \/ M0 (flat nX c) = (-2)%Z).
  assert (WW : forall c, wet nX M0 c -> forall C, inside nX C -> flat nX C = c -> exists n, walk nX (layer_cell nX M0) free n C /\ (M0 c <> 1%Z -> 0 < n)).
  { intros c W. induction W as [c Hc E|c k Hc W IH I F]; intros C HC EC.
    - exists 0. split; [apply walk_seed; [exact HC|unfold layer_cell; congruence]|]. lia.
    - rewrite <- EC in I. apply (adj_nbs nX C _ D12 HC) in I. destruct I as [K [A EK]]. destruct (IH K (proj1 A) EK) as [n [Wk _]].
      exists (S n). split; [|lia]. apply (walk_step nX _ _ n K C Wk).
      + split; [exact HC|]. destruct A as [_ [d [N|N]]]; exists d; [right|left]; exact N.
      + unfold free. rewrite EC. apply Bool.orb_true_iff in F. rewrite !Z.eqb_eq in F. exact F. }
  intros c Hc F HW. destruct (flat_surj nX c Hc) as [C [HC EC]]. apply Bool.orb_true_iff in F. rewrite !Z.eqb_eq in F.
  destruct (WW c HW C HC EC) as [n [W0 Pn]]. destruct n as [|n]; [lia|]. subst c.
  destruct (HG C n W0) as [L E]. destruct (normal_ex _ _ L) as [nr En]. exists nr. split; [exact En|].
  apply (back_range dX nX C D12 HdX HC _ _ En E).
Qed.
Print Assumptions fill_neighbor_safe_partial.

(** both hypotheses are needed *)
Lemma two_cells o (gr : nat -> R) : Options.N o <> 0 -> forall w, 
  fill_neighbor_inner o (fun _ => 1%R) [2] (array 2 (fun _ _ => 0%R)) gr (fun _ => 1) (mkbuf 2 (upd (fun i => Some (if Nat.eqb i 0 then 1%Z else 0%Z)) 1 (Some 2%Z))) 0%Z = UB w ->
  fill_neighbor_cells o (fun _ => 1%R) [2] (fun _ => gr) (array 2 (fun _ _ => 0%R), array 2 (fun i => if Nat.eqb i 0 then 1%Z else 0%Z)) = UB w.
Proof.
  intros HN w E. unfold fill_neighbor_cells, EXPANSION_FACTOR. destruct (10 * Options.N o - 1) as [|k] eqn:Ek; [lia|]. cbn [for_loop].
  cbn in *. rewrite E. reflexivity.
Qed.
Theorem fill_neighbor_edge_refuted : exists dphi : nat -> nat -> R,
  (forall i d, dphi i d <> 0%R) /\
  is_ub (fill_neighbor_cells shipped (fun _ => 1%R) [2] dphi (array 2 (fun _ _ => 0%R), array 2 (fun i => if Nat.eqb i 0 then 1%Z else 0%Z))).
Proof.
  exists (fun _ _ => (-1)%R). split; [intros; lra|]. eexists. apply two_cells; [discriminate|].
  unfold fill_neighbor_inner. destruct (normal_ex 1 (fun _ => (-1)%R)) as [nr En].
  { unfold length_of. cbn. apply sqrt_lt_R0. lra. }
  destruct (normal_some _ _ _ En) as [_ Hn]. cbn [List.length] in *. rewrite En.
  assert (L : length_of 1 (fun _ => (-1)%R) = 1%R). { unfold length_of. cbn. replace (-1 * -1 + 0)%R with 1%R by lra. apply sqrt_1. }
  assert (E : trunc (((INR 1 + / 2) * 1 - 1 * nr 0) / 1) = 2%Z).
  { apply (trunc_nat _ 2). rewrite Hn, L. cbn. lra. }
  unfold lin. rewrite E. reflexivity.
Qed.
Theorem fill_neighbor_gradient_refuted :
  is_ub (fill_neighbor_cells shipped (fun _ => 1%R) [2] (fun _ _ => 0%R) (array 2 (fun _ _ => 0%R), array 2 (fun i => if Nat.eqb i 0 then 1%Z else 0%Z))).
Proof.
  eexists. apply two_cells; [discriminate|]. unfold fill_neighbor_inner. rewrite normal_none; [reflexivity|].
  unfold length_of. cbn. replace (0 * 0 + 0)%R with 0%R by lra. apply sqrt_0.
Qed.
Print Assumptions fill_neighbor_edge_refuted.
Print Assumptions fill_neighbor_gradient_refuted.

Example fill_neighbor_case : exists g' m', fill_neighbor_cells shipped (fun _ => 1%R) [3] (fun _ _ => 1%R)
    (array 3 (fun i _ => INR i), array 3 (fun i => if Nat.eqb i 0 then 1%Z else 0%Z)) = Ok (g', m') /\
  rd m' 2 = Ok 3%Z /\ exists q, rd g' 2 = Ok q /\ forall k, k < 14 -> q k = 0%R.
Proof.
  set (M0 := fun i => if Nat.eqb i 0 then 1%Z else 0%Z). set (G0 := fun (i : nat) (_ : nat) => INR i).
  assert (Sg : stores (cells [3]) (array 3 G0) G0) by (split; [reflexivity|]; intros i Hi; apply rd_ok; [exact Hi|reflexivity]).
  assert (Sm : stores (cells [3]) (array 3 M0) M0) by (split; [reflexivity|]; intros i Hi; apply rd_ok; [exact Hi|reflexivity]).
  assert (Hle : forall c, inside [3] c -> (M0 (flat [3%nat] c) <= 1)%Z) by (intros c _; unfold M0; destruct (Nat.eqb _ 0); lia).
  assert (L1 : length_of 1 (fun _ => 1%R) = 1%R). { unfold length_of. cbn. replace (1 * 1 + 0)%R with 1%R by lra. apply sqrt_1. }
  destruct (fill_neighbor_safe_partial shipped (fun _ => 1%R) [3] (fun _ _ => 1%R) G0 M0 _ _ (or_introl eq_refl) ltac:(intros; lra) Sg Sm Hle) as [g' [m' E]].
  { intros c n _. cbn [List.length]. cbv zeta. rewrite L1. split; [lra|]. intros. lra. }
  exists g', m'. split; [exact E|].
  destruct (fill_layers shipped (fun _ => 1%R) [3] (fun _ _ => 1%R) G0 M0 _ _ _ _ (or_introl eq_refl) ltac:(intros; lra) Sg Sm Hle E) as [G [M [TG [TM H]]]].
  destruct (H [2] ltac:(cbn; lia)) as [_ [H2 [_ [_ [_ [_ [H7 _]]]]]]]. change (flat [3] [2]) with 2 in *.
  assert (R2 : reaches [3] (layer_cell [3] M0) (empty_cell [3] M0) 2 [2]).
  { split.
    - apply (walk_step _ _ _ 1 [1] [2]); [apply (walk_step _ _ _ 0 [0] [1])| |]; try reflexivity; try (apply walk_seed; [cbn; lia|reflexivity]);
        split; try (cbn; lia); exists 0; left; constructor.
    - intros k W. inversion W as [c' I S E1|k' c1 c2 W1 A F E1]; subst; [discriminate S|].
      inversion W1 as [c' I S E1|k'' c3 c4 W2 A2 F2 E1]; subst; [|lia].
      exfalso. destruct A as [_ [d [N|N]]]; inversion N; subst; try discriminate S; match goal with X : next _ _ _ |- _ => inversion X; fail end || idtac.
      all: try (cbn in I; lia). all: inversion H5. }
  assert (E2 : M 2 = 3%Z) by (rewrite (H2 eq_refl 2); [reflexivity|cbn; lia|exact R2]).
  split; [destruct TM as [_ TM]; rewrite TM by (cbn; lia); f_equal; exact E2|].
  exists (G 2). split; [apply TG; cbn; lia|]. destruct (H7 eq_refl) as [c [Hc [K Q]]]; [rewrite E2; discriminate|].
  intros k Hk. rewrite Q by (cbn; lia). unfold G0. destruct K as [K|[_ [K1 [d [Hd [K2 _]]]]]].
  - unfold layer_cell, M0 in K. destruct (Nat.eqb_spec (flat [3] c) 0) as [->|]; [reflexivity|discriminate].
  - destruct c as [|x [|? ?]]; cbn in Hc; try tauto. destruct d; [|cbn in Hd; lia]. cbn in K2. subst x. reflexivity.
Qed.

(** filling the first layer: the interface point of every ghost cell and the points one cell to either side of it are
    in the grid, and a cell of the material is found at one of the two on its side, or the cells behind along the axes
    are in the grid *)
Theorem fill_boundary_safe_partial o star dX nX MPs dt mat (P : nat -> R) dphi (G : nat -> vec) m :
  List.length nX = 1 \/ List.length nX = 2 -> (forall d, d < List.length nX -> (0 < dX d)%R) ->
  find_interface_cells (array (cells nX) P) nX = Ok m ->
  (forall c, first_ghost nX (on nX P) c -> fillable dX nX (on nX P) (on nX dphi) (fun c => get_material_index o (on nX G c)) mat c) ->
  (forall a b ML MR t nr, is_ok (star a b ML MR t nr)) -> mat < List.length MPs -> LSET o < List.length MPs ->
  is_ok (fill_boundary_cells o star dX nX MPs dt (cells nX) m mat (array (cells nX) P) dphi (array (cells nX) G)).
Proof.
  intros D12 HdX Em HF Hs Hm HL. rewrite cells_size in *.
  apply (boundary_safe o star dX nX MPs dt D12 HdX m mat P dphi G Em); try assumption.
  intros c I. apply in_seq in I. lia.
Qed.
Print Assumptions fill_boundary_safe_partial.
(** ** C44 *)
Theorem fill_boundary_schedule_partial o star dX nX MPs dt mat (P : nat -> R) dphi (G : nat -> vec) m order :
  List.length nX = 1 \/ List.length nX = 2 -> (forall d, d < List.length nX -> (0 < dX d)%R) ->
  find_interface_cells (array (cells nX) P) nX = Ok m ->
  let T c := get_material_index o (on nX G c) in
  let wr := written dX nX (on nX P) (on nX dphi) T mat in
  (forall c, first_ghost nX (on nX P) c -> fillable dX nX (on nX P) (on nX dphi) T mat c) ->
  (forall a b ML MR t nr, is_ok (star a b ML MR t nr)) -> mat < List.length MPs -> LSET o < List.length MPs ->
  (forall c, inside nX c -> (on nX P c <= 0)%R <-> T c = mat) ->
  (* no ghost cell writes what another one writes or reads on the far side *)
  (forall c c' k, first_ghost nX (on nX P) c -> first_ghost nX (on nX P) c' -> c <> c' -> wr c k ->
     ~ wr c' k /\ ~ cell_of dX nX (point_at dX nX (on nX P) (on nX dphi) 1 c') k) ->
  Permutation (seq 0 (cells nX)) order ->
  exists G' g g', fill_boundary_cells o star dX nX MPs dt (cells nX) m mat (array (cells nX) P) dphi (array (cells nX) G) = Ok g /\
    fill_boundary_order o star dX nX MPs dt order m mat (array (cells nX) P) dphi (array (cells nX) G) = Ok g' /\
    stores (cells nX) g G' /\ stores (cells nX) g' G'.
Proof.
  intros D12 HdX Em T wr HF Hs Hm HL HC Hsep HP. rewrite cells_size in *.
  destruct (boundary_schedule o star dX nX MPs dt D12 HdX m mat P dphi G Em) with (order := order) as [G' [g [g' [E1 [T1 [E2 T2]]]]]]; try assumption.
  exists G', g, g'. rewrite !stores_tot. auto.
Qed.
Print Assumptions fill_boundary_schedule_partial.

(** ** C45 *)
(** the level sets of a cell are nested: those before [j] positive, the others negative *)
Definition nested (o : options) (q : vec) (j : nat) : Prop := j <= LSET o /\
  (forall i, i < j -> (0 < q (V o - LSET o + i)%nat)%R) /\ (forall i, j <= i < LSET o -> (q (V o - LSET o + i)%nat < 0)%R).

Lemma fold_max_lt (f : nat -> R) l : forall p, (fold_left (fun p i => cmax p (f i)) l p < 0 <-> p < 0 /\ forall i, In i l -> f i < 0)%R.
Proof.
  induction l as [|a l IH]; intros p; cbn [fold_left]; [split; [intros H; split; [exact H|intros i []]|tauto]|].
  rewrite IH. unfold cmax. destruct (Rlt_dec p (f a)) as [L|L]; split; intros [A B].
  - split; [lra|]. intros i [<-|I]; [exact A|auto].
  - split; [apply B; left; reflexivity|]. intros i I. apply B. right. exact I.
  - split; [exact A|]. intros i [<-|I]; [lra|auto].
  - split; [exact A|]. intros i I. apply B. right. exact I.
Qed.
Lemma fold_max_gt (f : nat -> R) l : forall p, (0 < p \/ (exists i, In i l /\ 0 < f i) -> 0 < fold_left (fun p i => cmax p (f i)) l p)%R.
Proof.
  induction l as [|a l IH]; intros p H; cbn [fold_left]; [destruct H as [H|[i [[] _]]]; exact H|].
  apply IH. unfold cmax. destruct H as [H|[i [[<-|I] H]]].
  - left. destruct (Rlt_dec p (f a)); lra.
  - left. destruct (Rlt_dec p (f a)); lra.
  - right. exists i. auto.
Qed.
Lemma indicator_nested o nmat mat q : nmat = LSET o + 1 -> 1 <= LSET o -> mat < nmat -> (indicator o nmat mat q < 0)%R -> nested o q mat.
Proof.
  intros -> HL Hm. unfold indicator. destruct (Nat.ltb_spec 2 (LSET o + 1)) as [B|B].
  - rewrite fold_max_lt, (fold_max_lt (fun i => - q (V o - LSET o + i)%nat)%R). intros [[A1 A2] A3]. split; [lia|]. split.
    + intros i Hi. destruct (Nat.eqb_spec mat 0) as [->|N]; [lia|]. destruct i as [|i]; [rewrite Nat.add_0_r; lra|].
      specialize (A2 (S i) ltac:(apply in_seq; lia)). lra.
    + intros i Hi. apply A3. apply in_seq. lia.
  - assert (LSET o = 1) as E by lia. intros H. split; [lia|]. rewrite E. destruct (Nat.eqb_spec mat 0) as [->|N].
    + split; [intros; lia|]. intros i Hi. replace i with 0 by lia. rewrite Nat.add_0_r. rewrite E in H. exact H.
    + split; [|intros; lia]. intros i Hi. replace i with 0 by lia. rewrite Nat.add_0_r. rewrite E in H. lra.
Qed.
Lemma nested_index o q j : nested o q j -> get_material_index o q = j.
Proof.
  intros [H [A B]]. unfold get_material_index. replace (LSET o) with (j + (LSET o - j)) at 2 by lia. rewrite seq_app, filter_app, app_length.
  assert (F1 : forall l, (forall i, In i l -> (0 <= q i)%R) -> List.length (filter (fun i => if Rle_dec 0 (q i) then true else false) l) = List.length l).
  { induction l as [|a l IH]; intros Hl; [reflexivity|]. cbn [filter]. destruct (Rle_dec 0 (q a)) as [_|N]; [cbn; f_equal; apply IH; intros; apply Hl; right; assumption|].
    exfalso. apply N, Hl. left. reflexivity. }
  assert (F2 : forall l, (forall i, In i l -> (q i < 0)%R) -> filter (fun i => if Rle_dec 0 (q i) then true else false) l = []).
  { induction l as [|a l IH]; intros Hl; [reflexivity|]. cbn [filter]. destruct (Rle_dec 0 (q a)) as [N|_]; [|apply IH; intros; apply Hl; right; assumption].
    exfalso. specialize (Hl a (or_introl eq_refl)). lra. }
  rewrite F1, F2, seq_length; [cbn; lia| |].
  - intros i I. apply in_seq in I. replace i with (V o - LSET o + (i - (V o - LSET o))) by lia. apply B. lia.
  - intros i I. apply in_seq in I. replace i with (V o - LSET o + (i - (V o - LSET o))) by lia. apply Rlt_le. apply A. lia.
Qed.
Lemma nested_indicator o nmat mat q j : nmat = LSET o + 1 -> 1 <= LSET o -> mat < nmat -> nested o q j ->
  (mat = j -> indicator o nmat mat q < 0)%R /\ (mat <> j -> 0 < indicator o nmat mat q)%R.
Proof.
  intros -> HL Hm [Hj [A B]]. unfold indicator. destruct (Nat.ltb_spec 2 (LSET o + 1)) as [L|L].
  - split.
    + intros ->. rewrite fold_max_lt, (fold_max_lt (fun i => - q (V o - LSET o + i)%nat)%R). split; [split|].
      * destruct (Nat.eqb_spec j 0) as [->|N]; [specialize (B 0 ltac:(lia))|specialize (A 0 ltac:(lia))]; rewrite Nat.add_0_r in *; lra.
      * intros i I. apply in_seq in I. specialize (A i ltac:(lia)). lra.
      * intros i I. apply in_seq in I. apply B. lia.
    + intros N. destruct (lt_dec mat j) as [Q|Q].
      * apply fold_max_gt. right. exists mat. split; [apply in_seq; lia|apply A; exact Q].
      * apply fold_max_gt. left. apply fold_max_gt. destruct j as [|j].
        -- left. destruct (Nat.eqb_spec mat 0) as [->|_]; [lia|]. specialize (B 0 ltac:(lia)). rewrite Nat.add_0_r in B. lra.
        -- right. exists (S j). split; [apply in_seq; lia|]. specialize (B (S j) ltac:(lia)). lra.
  - assert (LSET o = 1) as E by lia. rewrite E in *. destruct mat as [|mat]; cbn [Nat.eqb].
    + split; [intros <-; specialize (B 0 ltac:(lia)); rewrite Nat.add_0_r in B; exact B|].
      intros N. specialize (A 0 ltac:(lia)). rewrite Nat.add_0_r in A. exact A.
    + split; [intros <-; specialize (A 0 ltac:(lia)); rewrite Nat.add_0_r in A; lra|].
      intros N. assert (j = 0) by lia. subst j. specialize (B 0 ltac:(lia)). rewrite Nat.add_0_r in B. lra.
Qed.
(** a cell inside a material (negative level set of the material) has the index of that material, and a cell whose level
    sets are nested is inside the material of its index and outside the others *)
Theorem materials_partition_partial o (u : nat -> vec) nmat mat nX dX Hmax :
  nmat = LSET o + 1 -> 1 <= LSET o -> mat < nmat ->
  (* what the fast-marching method needs when there are more than two materials *)
  (2 < nmat -> List.length nX <= 2 /\ (forall d, d < List.length nX -> (0 < nth d dX 0 <= Hmax)%R) /\
     (forall c, inside nX c -> let p := indicator o nmat mat (u (flat nX c)) in (p <= 0 \/ doubleEpsilon < p)%R) /\
     (Hmax * (INR (cells nX) + 1) < maxDouble)%R /\ (0 < Hmax)%R /\ has_interface nX (fun c => indicator o nmat mat (u (flat nX c)))) ->
  exists phi, material_indicator o u mat nmat dX nX = Ok phi /\ forall c, inside nX c ->
    ((phi (flat nX c) < 0)%R -> get_material_index o (u (flat nX c)) = mat) /\
    forall j, nested o (u (flat nX c)) j -> get_material_index o (u (flat nX c)) = j /\
      (mat = j -> (phi (flat nX c) < 0)%R) /\ (mat <> j -> (0 < phi (flat nX c))%R).
Proof.
  intros Hn HL Hm Hf. unfold material_indicator. destruct (Nat.eqb_spec (LSET o) 0) as [Q|_]; [lia|].
  destruct (Nat.ltb_spec 2 nmat) as [B|B].
  - destruct (Hf B) as [H1 [H2 [H3 [H4 [H5 H6]]]]]. destruct (fmm_sign_partial nX dX (fun i => indicator o nmat mat (u i)) Hmax H1 H2 H3 H4 H5 H6) as [b [D [E S]]].
    rewrite E. cbn [bind]. eexists. split; [reflexivity|]. intros c Hc. destruct (S c Hc) as [R1 [S1 [S2 S3]]]. apply rd_inv in R1. destruct R1 as [_ ->].
    split.
    + intros L. apply nested_index. apply (indicator_nested o nmat mat _ Hn HL Hm). cbv beta in *. destruct (Rtotal_order (indicator o nmat mat (u (flat nX c))) 0) as [X|[X|X]]; [exact X| |].
      * specialize (S3 X). lra.
      * specialize (S1 X). lra.
    + intros j Hj. destruct (nested_indicator o nmat mat _ j Hn HL Hm Hj) as [A1 A2]. split; [apply nested_index; exact Hj|].
      split; intros Q; [apply S2, A1, Q|apply S1, A2, Q].
  - eexists. split; [reflexivity|]. intros c Hc. split.
    + intros L. apply nested_index, (indicator_nested o nmat mat _ Hn HL Hm L).
    + intros j Hj. split; [apply nested_index; exact Hj|apply (nested_indicator o nmat mat _ j Hn HL Hm Hj)].
Qed.
Print Assumptions materials_partition_partial.
(** with the shipped two level sets, a cell with the first negative and the second positive is in no material *)
Theorem materials_cover_refuted : exists q : vec, q 14 <> 0%R /\ q 15 <> 0%R /\ get_material_index shipped q = 1 /\
  forall mat, mat < 3 -> (0 < indicator shipped 3 mat q)%R.
Proof.
  exists (fun k => if Nat.eqb k 14 then -1 else 1)%R. split; [cbn; lra|]. split; [cbn; lra|]. split.
  - unfold get_material_index. cbn. destruct (Rle_dec 0 (-1)); [lra|]. destruct (Rle_dec 0 1); [reflexivity|lra].
  - intros mat Hm. unfold indicator, cmax. destruct mat as [|[|[|mat]]]; [| | |lia]; cbn; repeat match goal with |- context [Rlt_dec ?a ?b] => destruct (Rlt_dec a b) end; lra.
Qed.
Print Assumptions materials_cover_refuted.
Example materials_case : nested shipped (fun k => if Nat.eqb k 14 then 1 else -1)%R 1.
Proof.
  split; [cbn; lia|]. split; intros i Hi; cbn in *.
  - replace i with 0 by lia. cbn. lra.
  - replace i with 1 by lia. cbn. lra.
Qed.

(** ** C46 *)
(** an affine field, sampled at the cell centres *)
Definition affine (dX : nat -> R) (nX : list nat) (a : R) (b : nat -> R) (c : list nat) : R :=
  (a + fold_right (fun d s => b d * ((INR (nth d c 0%nat) + 1 / 2) * dX d) + s) 0 (seq 0 (List.length nX)))%R.
Theorem finite_difference_affine dX nX phi a b :
  List.length nX = 1 \/ List.length nX = 2 -> (forall d, d < List.length nX -> 3 <= nth d nX 0 /\ (0 < dX d)%R) ->
  (forall c, inside nX c -> phi (flat nX c) = affine dX nX a b c) ->
  exists g, finite_difference phi dX nX = Ok g /\ forall c d, inside nX c -> d < List.length nX -> g (flat nX c) d = b d.
Proof.
  intros D H E.
  assert (IR : forall n i, 3 <= n -> i < n -> 1 <= inner_row n i /\ inner_row n i + 1 < n).
  { intros n i H1 H2. unfold inner_row. destruct (Nat.eqb_spec i 0); [lia|]. destruct (Nat.eqb_spec i (n - 1)); lia. }
  assert (IN : forall k, 1 <= k -> INR (k + 1) = (INR (k - 1) + 2)%R) by (intros k Hk; replace (k + 1) with (k - 1 + 2) by lia; rewrite plus_INR; cbn; lra).
  destruct D as [D|D].
  - destruct nX as [|nx [|? ?]]; try discriminate D. destruct (H 0 ltac:(cbn; lia)) as [H1 H2]. cbn [nth] in H1.
    unfold finite_difference. destruct (Nat.ltb_spec nx 3); [lia|]. eexists. split; [reflexivity|]. intros c d Hc Hd.
    destruct (inside1 _ _ Hc) as [x [-> Hx]]. replace d with 0 by (cbn in Hd; lia). cbv zeta beta. replace (flat [nx] [x]) with x by (cbn; lia).
    destruct (IR nx x H1 Hx) as [I1 I2]. set (k := inner_row nx x) in *.
    pose proof (E [k + 1] ltac:(cbn; lia)) as E1. pose proof (E [k - 1] ltac:(cbn; lia)) as E2.
    replace (flat [nx] [k + 1]) with (k + 1) in E1 by (cbn; lia). replace (flat [nx] [k - 1]) with (k - 1) in E2 by (cbn; lia).
    rewrite E1, E2. unfold affine. cbn [List.length seq fold_right nth]. rewrite IN by exact I1. field. lra.
  - destruct nX as [|nx [|ny [|? ?]]]; try discriminate D. destruct (H 0 ltac:(cbn; lia)) as [H1 H2]. destruct (H 1 ltac:(cbn; lia)) as [H3 H4]. cbn [nth] in H1, H3.
    unfold finite_difference. destruct (Nat.ltb_spec nx 3); [lia|]. destruct (Nat.ltb_spec ny 2); [lia|]. cbn [orb]. eexists. split; [reflexivity|]. intros c d Hc Hd.
    destruct (inside2 _ _ _ Hc) as [x [y [-> [Hx Hy]]]]. cbv zeta beta. replace (flat [nx; ny] [x; y]) with (x * ny + y) by (cbn; lia).
    destruct (divmod ny x y Hy) as [-> ->].
    assert (F : forall i j, i < nx -> j < ny -> phi (i * ny + j) = affine dX [nx; ny] a b [i; j]).
    { intros i j Hi Hj. rewrite <- E by (cbn; auto). f_equal. cbn. lia. }
    destruct d as [|[|d]]; cbn [Nat.eqb]; [| |cbn in Hd; lia].
    + destruct (IR nx x H1 Hx) as [I1 I2]. set (k := inner_row nx x) in *. rewrite !F by lia.
      unfold affine. cbn [List.length seq fold_right nth]. rewrite IN by exact I1. field. lra.
    + destruct (Nat.eqb_spec ny 2); [lia|]. destruct (IR ny y H3 Hy) as [I1 I2]. set (k := inner_row ny y) in *. rewrite !F by lia.
      unfold affine. cbn [List.length seq fold_right nth]. rewrite IN by exact I1. field. lra.
Qed.
Print Assumptions finite_difference_affine.
(** with two cells in the second direction the derivative along it is that of the first direction *)
Theorem finite_difference_narrow_refuted : exists phi g, (forall c, inside [3; 2] c -> phi (flat [3; 2] c) = affine (fun _ => 1%R) [3; 2] 0 (fun d => INR d) c) /\
  finite_difference phi (fun _ => 1%R) [3; 2] = Ok g /\ g 0 1 = 0%R.
Proof.
  exists (fun i => INR (i mod 2) + 1 / 2)%R. eexists. split; [|split; [reflexivity|]].
  - intros c Hc. destruct (inside2 _ _ _ Hc) as [x [y [-> [Hx Hy]]]]. replace (flat [3; 2] [x; y]) with (x * 2 + y) by (cbn; lia).
    destruct (divmod 2 x y Hy) as [_ ->]. unfold affine. cbn [List.length seq fold_right nth]. change (INR 0) with 0%R. change (INR 1) with 1%R. lra.
  - cbn. lra.
Qed.
Print Assumptions finite_difference_narrow_refuted.
Example finite_difference_case : exists phi g, finite_difference phi (fun _ => 1%R) [3; 3] = Ok g /\ g 8 0 = 2%R /\ g 0 1 = 5%R.
Proof.
  pose (phi := fun i => affine (fun _ => 1%R) [3; 3] 0 (fun d => if Nat.eqb d 0 then 2%R else 5%R) [i / 3; i mod 3]).
  destruct (finite_difference_affine (fun _ => 1%R) [3; 3] phi 0 (fun d => if Nat.eqb d 0 then 2%R else 5%R)) as [g [E H]].
  - right. reflexivity.
  - intros [|[|d]] Hd; cbn in *; split; try lia; lra.
  - intros c Hc. destruct (inside2 _ _ _ Hc) as [x [y [-> [Hx Hy]]]]. unfold phi. replace (flat [3; 3] [x; y]) with (x * 3 + y) by (cbn; lia).
    destruct (divmod 3 x y Hy) as [-> ->]. reflexivity.
  - exists phi, g. split; [exact E|]. split; [apply (H [2; 2] 0); cbn; lia|apply (H [0; 0] 1); cbn; lia].
Qed.

(** ** C70 *)
(** After ghost filling: the state keeps its level sets (those of [u']); for each material that is not a void, cells
    inside the material keep their values in its grid, and its mask marks the material and the layer around it; a void
    keeps its grid and has an empty mask. *)
Theorem ghost_filling o star dX nX MPs dt dXl u grids masks u' grids' masks' :
  List.length nX = 1 \/ List.length nX = 2 ->
  fill_ghost_cells o star dX nX MPs dt dXl (cells nX) u grids masks = Ok (u', grids', masks') ->
  renormalize_levelsets o u dXl nX = Ok u' /\ List.length grids' = List.length grids /\ List.length masks' = List.length masks /\
  forall mat, mat < List.length grids -> exists Mp, nth_error MPs mat = Some Mp /\
  (mp_void Mp = true -> nth_error grids' mat = nth_error grids mat /\ exists mk, nth_error masks' mat = Some mk /\ forall c, mk c = false) /\
  (mp_void Mp = false -> exists g G mk phi, nth_error grids' mat = Some g /\ stores (cells nX) g G /\ nth_error masks' mat = Some mk /\
     material_indicator o u' mat (List.length grids) dXl nX = Ok phi /\ let P := on nX phi in
     forall c, inside nX c -> let i := flat nX c in
       ((P c <= 0)%R -> (List.length nX = 2 -> ~ isolated nX P c) -> get_material_index o (u' i) = mat -> forall k, k < V o -> G i k = u' i k) /\
       (forall k, V o - LSET o <= k < V o -> G i k = u' i k) /\
       (mk i = true <-> belongs nX P c)).
Proof.
  intros D12 E. rewrite cells_size in *. destruct (ghost_loop o star dX nX MPs dt dXl _ _ _ _ _ _ _ E) as [H1 [H2 [H3 H4]]].
  split; [exact H1|]. split; [exact H2|]. split; [exact H3|]. intros mat Hm. destruct (H4 mat Hm) as [Mp [E1 [E2 E3]]]. exists Mp. split; [exact E1|]. split.
  - intros Q. destruct (E2 Q) as [A B]. split; [exact A|]. eexists. split; [exact B|reflexivity].
  - intros Q. destruct (E3 Q) as [g [mk [F [A B]]]]. destruct (material_facts o star dX nX MPs dt dXl D12 _ _ _ _ _ F) as [phi [I1 [G [TG [K1 [K2 K3]]]]]].
    exists g, G, mk, phi. split; [exact A|]. split; [apply stores_tot; exact TG|]. split; [exact B|]. split; [exact I1|]. cbv zeta. intros c Hc. split; [|split].
    + intros L NI T. apply K1; try assumption. intros [X Y]. apply (NI X). exact Y.
    + intros k Hk. apply K2; [apply flat_lt; exact Hc|exact Hk].
    + apply K3. exact Hc.
Qed.
Print Assumptions ghost_filling.

(** ** a slab: four rows of three cells, two rows inside the material; and two slabs with a gap of two cells *)
Definition one_levelset : options := mkopt true false false 1 true false 2.
Definition ones : nat -> R := fun _ => 1%R.
Definition slab_phi (i : nat) : R := (INR (i / 3) - 3 / 2)%R.
Definition state_of (P : nat -> R) (i : nat) : vec := fun k => if Nat.eqb k 14 then P i else 1%R.
Definition keep_left (a b : vec) (ML MR : matpar) (t : R) (nr : nat -> R) : res vec := Ok a.
Lemma nbr2 d x y c' : nbr d [x; y] c' -> c' = [S x; y] \/ c' = [x; S y] \/ (exists x', x = S x' /\ c' = [x'; y]) \/ (exists y', y = S y' /\ c' = [x; y']).
Proof.
  intros [N|N]; inversion N; subst; auto.
  - match goal with X : next _ [y] _ |- _ => inversion X; subst; auto; match goal with Y : next _ [] _ |- _ => inversion Y end end.
  - right. right. left. eexists. split; reflexivity.
  - match goal with X : next _ _ [y] |- _ => inversion X; subst; [right; right; right; eexists; split; reflexivity|]; match goal with Y : next _ _ [] |- _ => inversion Y end end.
Qed.
Lemma adj_row x y : 0 < x -> x < 4 -> y < 3 -> adjacent [4; 3] [x; y] [x - 1; y].
Proof. intros. split; [cbn; lia|]. exists 0. right. replace x with (S (x - 1)) at 2 by lia. constructor. Qed.
Lemma state_index P i : get_material_index one_levelset (state_of P i) = if Rle_dec 0 (P i) then 1 else 0.
Proof. unfold get_material_index, state_of. cbn. destruct (Rle_dec 0 (P i)); reflexivity. Qed.
Lemma flat43 x y : flat [4; 3] [x; y] = x * 3 + y.
Proof. cbn. lia. Qed.
Lemma slab_at x y : y < 3 -> on [4; 3] slab_phi [x; y] = (INR x - 3 / 2)%R.
Proof. intros H. unfold on, slab_phi. rewrite flat43. destruct (divmod 3 x y H) as [-> _]. reflexivity. Qed.
Lemma slab_ghost c : first_ghost [4; 3] (on [4; 3] slab_phi) c -> exists y, y < 3 /\ c = [2; y].
Proof.
  intros [I [HP [c' [[I' [d A]] [HQ _]]]]]. destruct (inside2 _ _ _ I) as [x [y [-> [Hx Hy]]]]. exists y. split; [exact Hy|]. f_equal.
  rewrite slab_at in HP by exact Hy. assert (X : forall n, (INR n - 3 / 2 <= 0)%R -> n <= 1).
  { intros n Hn. apply INR_le. cbn. destruct (le_lt_dec n 1) as [L|L]; [apply le_INR in L; cbn in L; lra|]. apply le_INR in L. cbn in L. lra. }
  assert (2 <= x). { destruct (le_lt_dec 2 x) as [L|L]; [exact L|]. assert (L' : x <= 1) by lia. apply le_INR in L'. cbn in L'. lra. }
  apply nbr2 in A. destruct (inside2 _ _ _ I') as [x' [y' [-> [Hx' Hy']]]]. rewrite slab_at in HQ by exact Hy'. apply X in HQ.
  destruct A as [A|[A|[[z [E A]]|[z [E A]]]]]; injection A as -> ->; lia.
Qed.
Section Slab.
Variable dphi : nat -> nat -> R.
Hypothesis Hd : forall c d, inside [4; 3] c -> d < 2 -> dphi (flat [4; 3] c) d = if Nat.eqb d 0 then 1%R else 0%R.
Lemma slab_len c : inside [4; 3] c -> length_of 2 (on [4; 3] dphi c) = 1%R.
Proof.
  intros I. unfold length_of, on. cbn [seq fold_right]. rewrite !Hd by (assumption || lia). cbn [Nat.eqb].
  replace (1 * 1 + (0 * 0 + 0))%R with 1%R by lra. apply sqrt_1.
Qed.
Lemma slab_point s x y d : x < 4 -> y < 3 -> d < 2 -> point_at ones [4; 3] (on [4; 3] slab_phi) (on [4; 3] dphi) s [x; y] d =
  if Nat.eqb d 0 then (2 + s)%R else (INR y + 1 / 2)%R.
Proof.
  intros Hx Hy D. unfold point_at, probe_point, unit_of, ones. rewrite slab_at by exact Hy. change (List.length [4; 3]) with 2. rewrite slab_len by (cbn; lia).
  unfold on. rewrite Hd by (cbn; lia). destruct d as [|[|d]]; cbn [Nat.eqb nth]; [lra|lra|lia].
Qed.
Lemma slab_cell s k x y c : x < 4 -> y < 3 -> (2 + s = INR k)%R -> 1 <= k < 4 ->
  cell_of ones [4; 3] (point_at ones [4; 3] (on [4; 3] slab_phi) (on [4; 3] dphi) s [x; y]) c <-> c = [k; y].
Proof.
  intros Hx Hy Hs Hk. assert (K1 : (1 <= INR k)%R) by (apply (le_INR 1); lia). split.
  - intros [I H]. destruct (inside2 _ _ _ I) as [i [j [-> [Hi Hj]]]]. pose proof (H 0 ltac:(cbn; lia)) as H0. pose proof (H 1 ltac:(cbn; lia)) as H1.
    rewrite slab_point in H0, H1 by lia. cbn [Nat.eqb nth] in H0, H1. unfold ones in H0, H1. rewrite Hs in H0.
    assert (U : forall a b t, (INR a <= INR b + t < INR a + 1)%R -> (0 <= t < 1)%R -> a = b).
    { intros a b t [A1 A2] T. assert (a < b + 1) by (apply INR_lt; rewrite plus_INR; cbn; lra).
      assert (b < a + 1) by (apply INR_lt; rewrite plus_INR; cbn; lra). lia. }
    f_equal; [|f_equal].
    + destruct H0 as [[-> H0]|H0]; [lra|]. apply (U i k 0%R); lra.
    + destruct H1 as [[-> H1]|H1]; [|apply (U j y (1/2)%R); lra]. destruct y as [|y]; [reflexivity|]. rewrite S_INR in H1. pose proof (pos_INR y). lra.
  - intros ->. split; [cbn; lia|]. intros d D. right. rewrite slab_point by (assumption || exact D). unfold ones. destruct d as [|[|d]]; cbn [Nat.eqb nth]; [lra|lra|cbn in D; lia].
Qed.
Notation T := (fun c => get_material_index one_levelset (on [4; 3] (state_of slab_phi) c)).
Lemma slab_type x y : x < 4 -> y < 3 -> T [x; y] = if Nat.ltb x 2 then 0 else 1.
Proof.
  intros Hx Hy. unfold on. rewrite state_index. fold (on [4; 3] slab_phi [x; y]). change (slab_phi (flat [4; 3] [x; y])) with (on [4; 3] slab_phi [x; y]). rewrite slab_at by exact Hy.
  destruct x as [|[|[|[|x]]]]; cbn; [| | | |lia]; destruct (Rle_dec _ _); lra || reflexivity.
Qed.
Lemma slab_fillable c : first_ghost [4; 3] (on [4; 3] slab_phi) c -> fillable ones [4; 3] (on [4; 3] slab_phi) (on [4; 3] dphi) T 0 c.
Proof.
  intros G. destruct (slab_ghost c G) as [y [Hy ->]].
  assert (B : forall s, (-1 <= s <= 1)%R -> in_box ones [4; 3] (point_at ones [4; 3] (on [4; 3] slab_phi) (on [4; 3] dphi) s [2; y])).
  { intros s Hs d D. rewrite slab_point by (lia || exact D). unfold ones. assert (INR y <= 2)%R by (apply (le_INR y 2); lia). pose proof (pos_INR y).
    destruct d as [|[|d]]; cbn [Nat.eqb nth]; [cbn; lra|cbn; lra|cbn in D; lia]. }
  split; [change (List.length [4; 3]) with 2; rewrite slab_len by (cbn; lia); lra|]. split; [apply B; lra|]. split; [apply B; lra|]. split; [apply B; lra|].
  left. exists [1; y]. split; [|apply (slab_type 1 y); lia]. right. apply (slab_cell (-1) 1 2 y); try lia; [cbn; lra|reflexivity].
Qed.
Lemma slab_separate c c' k : first_ghost [4; 3] (on [4; 3] slab_phi) c -> first_ghost [4; 3] (on [4; 3] slab_phi) c' -> c <> c' ->
  written ones [4; 3] (on [4; 3] slab_phi) (on [4; 3] dphi) T 0 c k ->
  ~ written ones [4; 3] (on [4; 3] slab_phi) (on [4; 3] dphi) T 0 c' k /\
  ~ cell_of ones [4; 3] (point_at ones [4; 3] (on [4; 3] slab_phi) (on [4; 3] dphi) 1 c') k.
Proof.
  intros G1 G2 N W. destruct (slab_ghost c G1) as [y [Hy ->]]. destruct (slab_ghost c' G2) as [y' [Hy' ->]].
  assert (I : forall y k, y < 3 -> written ones [4; 3] (on [4; 3] slab_phi) (on [4; 3] dphi) T 0 [2; y] k -> k = [2; y]).
  { intros z l Hz [E|[E _]]; [exact E|]. apply (slab_cell 0 2 2 z l) in E; try lia; [exact E|cbn; lra]. }
  apply I in W; [|exact Hy]. subst k. split.
  - intros W. apply I in W; [|exact Hy']. congruence.
  - intros W. apply (slab_cell 1 3 2 y') in W; try lia; [discriminate|cbn; lra].
Qed.
End Slab.
Lemma slab_gradient : exists dphi, finite_difference slab_phi ones [4; 3] = Ok dphi /\
  forall c d, inside [4; 3] c -> d < 2 -> dphi (flat [4; 3] c) d = if Nat.eqb d 0 then 1%R else 0%R.
Proof.
  apply (finite_difference_affine ones [4; 3] slab_phi (-2) (fun d => if Nat.eqb d 0 then 1%R else 0%R)).
  - right. reflexivity.
  - intros [|[|d]] Hd; cbn in *; unfold ones; split; try lia; lra.
  - intros c Hc. destruct (inside2 _ _ _ Hc) as [x [y [-> [Hx Hy]]]]. rewrite <- (slab_at x y Hy) at 1 || idtac.
    change (slab_phi (flat [4; 3] [x; y])) with (on [4; 3] slab_phi [x; y]). rewrite slab_at by exact Hy. unfold affine, ones. cbn [List.length seq fold_right nth Nat.eqb]. lra.
Qed.
Definition two_materials (M : matpar) : list matpar := [M; M].
(** the hypotheses of [fill_boundary_schedule_partial] hold for the slab and every order of its cells *)
Example schedule_case M order : Permutation (seq 0 12) order -> exists m dphi G' g g',
  find_interface_cells (array 12 slab_phi) [4; 3] = Ok m /\ finite_difference slab_phi ones [4; 3] = Ok dphi /\
  fill_boundary_cells one_levelset keep_left ones [4; 3] (two_materials M) 1 12 m 0 (array 12 slab_phi) dphi (array 12 (state_of slab_phi)) = Ok g /\
  fill_boundary_order one_levelset keep_left ones [4; 3] (two_materials M) 1 order m 0 (array 12 slab_phi) dphi (array 12 (state_of slab_phi)) = Ok g' /\
  stores 12 g G' /\ stores 12 g' G'.
Proof.
  intros HP. destruct (interface_cells_2d 4 3 slab_phi) as [m [Em _]]. destruct slab_gradient as [dphi [Ed Hd]]. exists m, dphi.
  destruct (fill_boundary_schedule_partial one_levelset keep_left ones [4; 3] (two_materials M) 1 0 slab_phi dphi (state_of slab_phi) m order)
    as [G' [g [g' [X1 [X2 [X3 X4]]]]]]; try assumption.
  - right. reflexivity.
  - intros. unfold ones. lra.
  - apply slab_fillable. exact Hd.
  - intros. eexists. reflexivity.
  - cbn. lia.
  - cbn. lia.
  - intros c Hc. destruct (inside2 _ _ _ Hc) as [x [y [-> [Hx Hy]]]]. rewrite slab_at, slab_type by assumption.
    destruct x as [|[|[|[|x]]]]; cbn; [| | | |lia]; split; intros; try lra; try reflexivity; try discriminate; lra.
  - intros c c' k. apply slab_separate. exact Hd.
  - exists G', g, g'. exact (conj Em (conj Ed (conj X1 (conj X2 (conj X3 X4))))).
Qed.
(** the whole filling of a material runs on the slab *)
Example material_case M : exists g mk, fill_material one_levelset keep_left ones [4; 3] (two_materials M) 1 [1%R; 1%R] 12 2 0 (state_of slab_phi) = Ok (g, mk).
Proof.
  destruct (interface_cells_2d 4 3 slab_phi) as [m [Em _]]. destruct slab_gradient as [dphi [Ed Hd]].
  destruct (labels_ex [4; 3] slab_phi ltac:(right; reflexivity)) as [m' [M0 [Em' [TM HL]]]].
  change (find_interface_cells (array 12 slab_phi) [4; 3] = Ok m') in Em'.
  destruct (fill_boundary_safe_partial one_levelset keep_left ones [4; 3] (two_materials M) 1 0 slab_phi dphi (state_of slab_phi) m') as [g1 E1]; try assumption.
  - right. reflexivity.
  - intros. unfold ones. lra.
  - apply slab_fillable. exact Hd.
  - intros. eexists. reflexivity.
  - cbn. lia.
  - cbn. lia.
  - assert (SG : exists G1, stores 12 g1 G1).
    { pose proof (order_plan one_levelset keep_left ones [4; 3] (two_materials M) 1 ltac:(right; reflexivity) m' M0 0 slab_phi dphi TM
        (fun c => get_material_index one_levelset (state_of slab_phi c)) (seq 0 12) ltac:(intros c I; apply in_seq in I; cbn; lia)
        (full 12 (state_of slab_phi)) (state_of slab_phi) (tot_full 12 _) ltac:(intros c _; reflexivity)) as X.
      unfold same_res in X. change (full (size_ [4; 3]) slab_phi) with (array 12 slab_phi) in X. change (full 12 (state_of slab_phi)) with (array 12 (state_of slab_phi)) in X.
      unfold fill_boundary_cells in E1. change (cells [4; 3]) with 12 in E1. rewrite E1 in X.
      destruct (exec_all _ _ _ _ _ _ _ _ _ _ _ _ _ _) as [G1| | |]; try discriminate. destruct X as [g' [Q TG]]. injection Q as <-. exists G1. apply stores_tot. exact TG. }
    destruct SG as [G1 SG].
    destruct (fill_neighbor_safe_partial one_levelset ones [4; 3] dphi G1 M0 g1 m') as [g2 [m2 E2]].
    + right. reflexivity.
    + intros. unfold ones. lra.
    + exact SG.
    + apply stores_tot. exact TM.
    + intros c Hc. apply (l_le _ _ _ HL). apply flat_lt. exact Hc.
    + intros c n W. assert (Hc : inside [4; 3] c) by (inversion W as [|? ? ? ? A]; subst; exact (proj1 A)). cbv zeta. change (List.length [4; 3]) with 2. change (dphi (flat [4; 3] c)) with (on [4; 3] dphi c). rewrite (slab_len dphi Hd c Hc). split; [lra|].
      intros d D _. unfold on. rewrite Hd by assumption. destruct (Nat.eqb d 0); lra.
    + assert (EM : material_indicator one_levelset (state_of slab_phi) 0 2 [1%R; 1%R] [4; 3] = Ok slab_phi) by reflexivity.
      unfold fill_material. rewrite EM. cbv zeta. cbn [bind]. rewrite Ed. cbn [bind]. unfold array in *. rewrite Em'. cbn [bind].
      change (cells [4; 3]) with 12 in E1. rewrite E1. cbn [bind]. rewrite E2. cbn [bind]. eexists. eexists. reflexivity.
Qed.

(** a gap of two cells between two parts of the material: the ghost cells of one part read those of the other, and the
    order in which the parallel loop takes them shows in the result *)
Definition gap_phi (i : nat) : R := if (Nat.ltb i 3 || Nat.leb 9 i)%bool then (-1/2)%R else (1/2)%R.
Definition add_states (a b : vec) (ML MR : matpar) (t : R) (nr : nat -> R) : res vec := Ok (fun k => a k + b k)%R.
Definition gap_grad (i d : nat) : R := if Nat.eqb d 0 then (if Nat.ltb i 6 then (1/2)%R else (-1/2)%R) else 0%R.
Lemma gap_gradient : exists g, finite_difference gap_phi ones [4; 3] = Ok g /\ forall i d, i < 12 -> d < 2 -> g i d = gap_grad i d.
Proof.
  eexists. split; [reflexivity|]. intros i d Hi Hd. unfold gap_grad, gap_phi, ones, inner_row.
  do 12 (destruct i as [|i]; [destruct d as [|[|d]]; [| |lia]; cbn -[Rdiv]; lra|]). lia.
Qed.
Lemma gap_normal g i : (forall d, d < 2 -> g d = gap_grad i d) -> exists nr, normal 2 g = Some nr /\ nr 0 = (if Nat.ltb i 6 then 1 else -1)%R /\ nr 1 = 0%R.
Proof.
  intros H. assert (L : length_of 2 g = (1/2)%R).
  { unfold length_of. cbn [seq fold_right]. rewrite !H by lia. unfold gap_grad. cbn [Nat.eqb]. destruct (Nat.ltb i 6).
    - replace (1 / 2 * (1 / 2) + (0 * 0 + 0))%R with (1/2 * (1/2))%R by lra. apply sqrt_square. lra.
    - replace (-1 / 2 * (-1 / 2) + (0 * 0 + 0))%R with (1/2 * (1/2))%R by lra. apply sqrt_square. lra. }
  destruct (normal_ex 2 g) as [nr E]; [rewrite L; lra|]. exists nr. destruct (normal_some _ _ _ E) as [_ Hn]. split; [exact E|].
  rewrite !Hn, L, !H by lia. unfold gap_grad. cbn [Nat.eqb]. destruct (Nat.ltb i 6); lra.
Qed.
Lemma gap_type i : i < 12 -> get_material_index one_levelset (state_of gap_phi i) = if (Nat.ltb i 3 || Nat.leb 9 i)%bool then 0 else 1.
Proof.
  intros Hi. rewrite state_index. unfold gap_phi. destruct (Nat.ltb i 3 || Nat.leb 9 i)%bool; destruct (Rle_dec _ _); lra || reflexivity.
Qed.
Section Gap.
Variables (M : matpar) (m : buf Z) (M0 : nat -> Z) (dphi : nat -> nat -> R).
Hypothesis Tm : tot 12 m M0.
Hypothesis HL : labels [4; 3] gap_phi M0.
Hypothesis Hd : forall i d, i < 12 -> d < 2 -> dphi i d = gap_grad i d.
Notation T := (fun c => get_material_index one_levelset (state_of gap_phi c)).
Notation plan_at := (plan_of ones [4; 3] (two_materials M) m M0 0 gap_phi dphi T).
Lemma gap_label x y : x < 4 -> y < 3 -> M0 (x * 3 + y) = 1%Z <-> x = 1 \/ x = 2.
Proof.
  intros Hx Hy. rewrite <- flat43. rewrite (l_one _ _ _ HL [x; y]) by (cbn; lia). rewrite flat43.
  assert (V1 : forall a b, a < 4 -> b < 3 -> gap_phi (a * 3 + b) = if (Nat.eqb a 0 || Nat.eqb a 3)%bool then (-1/2)%R else (1/2)%R).
  { intros a b Ha Hb. unfold gap_phi. destruct a as [|[|[|[|a]]]]; [| | | |lia]; destruct b as [|[|[|b]]]; try lia; reflexivity. }
  split.
  - intros [HP _]. rewrite V1 in HP by assumption. destruct x as [|[|[|[|x]]]]; [cbn in HP; lra|auto|auto|cbn in HP; lra|lia].
  - intros E. split; [rewrite V1 by assumption; destruct E as [->| ->]; cbn; lra|].
    assert (NI : forall a, a = 0 \/ a = 3 -> ~ isolated [4; 3] (fun C => gap_phi (flat [4; 3] C)) [a; y]).
    { intros a Ha [_ Q]. destruct y as [|y].
      - specialize (Q [a; 1]). rewrite flat43, V1 in Q by lia. destruct Ha as [-> | ->]; cbn in Q; enough (0 < -1/2)%R by lra; apply Q; split; try (cbn; lia); exists 1; left; repeat constructor.
      - specialize (Q [a; y]). rewrite flat43, V1 in Q by lia. destruct Ha as [-> | ->]; cbn in Q; enough (0 < -1/2)%R by lra; apply Q; split; try (cbn; lia); exists 1; right; repeat constructor. }
    destruct E as [-> | ->].
    + exists [0; y]. split; [split; [cbn; lia|exists 0; right; constructor]|]. split; [rewrite flat43, V1 by lia; cbn; lra|]. intros _. apply NI. auto.
    + exists [3; y]. split; [split; [cbn; lia|exists 0; left; constructor]|]. split; [rewrite flat43, V1 by lia; cbn; lra|]. intros _. apply NI. auto.
Qed.
Lemma gap_none x y : x = 0 \/ x = 3 -> y < 3 -> plan_at (x * 3 + y) = Ok None.
Proof.
  intros Hx Hy. unfold plan_of. destruct (Z.eqb_spec (M0 (x * 3 + y)) 1) as [E|_]; [|reflexivity]. apply gap_label in E; lia.
Qed.
Lemma gap_plan x y : x = 1 \/ x = 2 -> y < 3 -> exists p, plan_at (x * 3 + y) = Ok (Some p) /\ pl_own p = x * 3 + y /\
  pl_left p = (if Nat.eqb x 1 then y else 9 + y) /\ pl_right p = 6 + y /\ pl_extra p = (if Nat.eqb x 1 then Some (x * 3 + y) else None).
Proof.
  intros Hx Hy. assert (Hc : x * 3 + y < 12) by lia. unfold plan_of. destruct (Z.eqb_spec (M0 (x * 3 + y)) 1) as [_|E]; [|exfalso; apply E, gap_label; lia].
  destruct (indn_safe [4; 3] ltac:(right; reflexivity) m M0 Tm [x; y] ltac:(cbn; lia)) as [indn [Ei _]]. rewrite flat43 in Ei. rewrite Ei. cbn [bind].
  change (List.length [4; 3]) with 2. destruct (gap_normal (dphi (x * 3 + y)) (x * 3 + y)) as [nr [En [N0 N1]]]; [intros; apply Hd; lia|]. rewrite En.
  assert (Y : forall s, trunc (((INR y + / 2) * 1 - gap_phi (x * 3 + y) * nr 1 + s * 1 * nr 1) / 1) = Z.of_nat y) by (intros s; apply trunc_nat; rewrite N1; pose proof (pos_INR y); lra).
  assert (CO : forall d, coords [4; 3] (x * 3 + y) d = if Nat.eqb d 0 then x else y).
  { intros d. unfold coords. destruct (divmod 3 x y Hy) as [-> ->]. reflexivity. }
  assert (PR : forall s k, trunc (((INR x + / 2) * 1 - gap_phi (x * 3 + y) * nr 0 + s * 1 * nr 0) / 1) = Z.of_nat k ->
     lin [4; 3] (probe (coords [4; 3] (x * 3 + y)) (gap_phi (x * 3 + y)) nr ones s) = Z.of_nat (k * 3 + y)).
  { intros s k E. unfold lin, probe, ones. rewrite !CO. cbn [Nat.eqb]. rewrite Y, E. lia. }
  assert (CH : forall k, k < 12 -> chk [4; 3] (Z.of_nat k) = Ok k) by (intros k Hk; apply chk_in; cbn; lia).
  unfold boundary_inds. destruct Hx as [-> | ->].
  - assert (G1 : gap_phi (1 * 3 + y) = (1/2)%R) by (destruct y as [|[|[|y]]]; try lia; reflexivity).
    assert (N0' : nr 0 = 1%R) by (rewrite N0; destruct y as [|[|[|y]]]; try lia; reflexivity).
    rewrite (PR 1%R 2) by (apply trunc_nat; rewrite G1, N0'; cbn; lra). rewrite (PR 0%R 1) by (apply trunc_nat; rewrite G1, N0'; cbn; lra).
    rewrite (PR (-1)%R 0) by (apply trunc_nat; rewrite G1, N0'; cbn; lra). rewrite !CH by lia. cbn [bind]. cbv beta.
    rewrite (gap_type (1 * 3 + y)) by lia. replace (Nat.ltb (1 * 3 + y) 3 || Nat.leb 9 (1 * 3 + y))%bool with false by (destruct y as [|[|[|y]]]; try lia; reflexivity).
    cbn [Nat.eqb bind]. rewrite (gap_type (0 * 3 + y)) by lia.
    replace (Nat.ltb (0 * 3 + y) 3 || Nat.leb 9 (0 * 3 + y))%bool with true by (destruct y as [|[|[|y]]]; try lia; reflexivity). cbn [Nat.eqb bind].
    rewrite (gap_type (2 * 3 + y)) by lia. replace (Nat.ltb (2 * 3 + y) 3 || Nat.leb 9 (2 * 3 + y))%bool with false by (destruct y as [|[|[|y]]]; try lia; reflexivity).
    cbn. eexists. split; [reflexivity|]. cbn. auto.
  - assert (G1 : gap_phi (2 * 3 + y) = (1/2)%R) by (destruct y as [|[|[|y]]]; try lia; reflexivity).
    assert (N0' : nr 0 = (-1)%R) by (rewrite N0; destruct y as [|[|[|y]]]; try lia; reflexivity).
    rewrite (PR 1%R 2) by (apply trunc_nat; rewrite G1, N0'; cbn; lra). rewrite (PR 0%R 3) by (apply trunc_nat; rewrite G1, N0'; cbn; lra).
    rewrite !CH by lia. cbn [bind]. cbv beta.
    rewrite (gap_type (3 * 3 + y)) by lia. replace (Nat.ltb (3 * 3 + y) 3 || Nat.leb 9 (3 * 3 + y))%bool with true by (destruct y as [|[|[|y]]]; try lia; reflexivity).
    cbn [Nat.eqb bind].
    rewrite (gap_type (2 * 3 + y)) by lia. replace (Nat.ltb (2 * 3 + y) 3 || Nat.leb 9 (2 * 3 + y))%bool with false by (destruct y as [|[|[|y]]]; try lia; reflexivity).
    cbn. eexists. split; [reflexivity|]. cbn. auto.
Qed.
End Gap.
Lemma exec_add p G own left right extra : pl_own p = own -> pl_left p = left -> pl_right p = right -> pl_extra p = extra ->
  exists G', exec one_levelset add_states 1 (Some p) G = Ok G' /\
  forall c, G' c 0%nat = if (Nat.eqb c own || match extra with Some i => Nat.eqb c i | None => false end)%bool then (G left 0%nat + G right 0%nat)%R else G c 0%nat.
Proof.
  intros <- <- <- <-. eexists. split; [reflexivity|]. intros c. destruct (pl_extra p) as [i|].
  - unfold upd. destruct (Nat.eqb_spec c i) as [->|N]; [rewrite Bool.orb_true_r; reflexivity|]. rewrite Bool.orb_false_r. destruct (Nat.eqb c (pl_own p)); reflexivity.
  - unfold upd. rewrite Bool.orb_false_r. destruct (Nat.eqb c (pl_own p)); reflexivity.
Qed.
Theorem fill_boundary_schedule_refuted M : exists m dphi g g' q q' order,
  find_interface_cells (array 12 gap_phi) [4; 3] = Ok m /\ finite_difference gap_phi ones [4; 3] = Ok dphi /\
  Permutation (seq 0 12) order /\
  fill_boundary_cells one_levelset add_states ones [4; 3] (two_materials M) 1 12 m 0 (array 12 gap_phi) dphi (array 12 (state_of gap_phi)) = Ok g /\
  fill_boundary_order one_levelset add_states ones [4; 3] (two_materials M) 1 order m 0 (array 12 gap_phi) dphi (array 12 (state_of gap_phi)) = Ok g' /\
  rd g 3 = Ok q /\ rd g' 3 = Ok q' /\ q 0 = 2%R /\ q' 0 = 3%R.
Proof.
  destruct (labels_ex [4; 3] gap_phi ltac:(right; reflexivity)) as [m [M0 [Em [Tm HL]]]]. destruct gap_gradient as [dphi [Ed Hd]].
  set (T := fun c => get_material_index one_levelset (state_of gap_phi c)).
  pose proof (fun l Hl => order_plan one_levelset add_states ones [4; 3] (two_materials M) 1 ltac:(right; reflexivity) m M0 0 gap_phi dphi Tm T l Hl
        (array 12 (state_of gap_phi)) (state_of gap_phi) (tot_full 12 _) ltac:(intros c _; reflexivity)) as OP.
  assert (B1 : forall c, In c (seq 0 12) -> c < size_ [4; 3]) by (intros c I; apply in_seq in I; cbn; lia).
  assert (B2 : forall c, In c (rev (seq 0 12)) -> c < size_ [4; 3]) by (intros c I; apply B1; apply in_rev; exact I).
  pose proof (OP _ B1) as X1. pose proof (OP _ B2) as X2. clear OP.
  pose proof (gap_none M m M0 dphi HL) as PN. pose proof (gap_plan M m M0 dphi Tm HL Hd) as PP. fold T in PN, PP.
  destruct (PP 1 0 ltac:(lia) ltac:(lia)) as [p3 [E3 [O3 [L3 [R3 Z3]]]]]. destruct (PP 1 1 ltac:(lia) ltac:(lia)) as [p4 [E4 [O4 [L4 [R4 Z4]]]]].
  destruct (PP 1 2 ltac:(lia) ltac:(lia)) as [p5 [E5 [O5 [L5 [R5 Z5]]]]]. destruct (PP 2 0 ltac:(lia) ltac:(lia)) as [p6 [E6 [O6 [L6 [R6 Z6]]]]].
  destruct (PP 2 1 ltac:(lia) ltac:(lia)) as [p7 [E7 [O7 [L7 [R7 Z7]]]]]. destruct (PP 2 2 ltac:(lia) ltac:(lia)) as [p8 [E8 [O8 [L8 [R8 Z8]]]]].
  pose proof (PN 0 0 ltac:(lia) ltac:(lia)) as E0. pose proof (PN 0 1 ltac:(lia) ltac:(lia)) as E1. pose proof (PN 0 2 ltac:(lia) ltac:(lia)) as E2.
  pose proof (PN 3 0 ltac:(lia) ltac:(lia)) as E9. pose proof (PN 3 1 ltac:(lia) ltac:(lia)) as E10. pose proof (PN 3 2 ltac:(lia) ltac:(lia)) as E11.
  cbn [Nat.mul Nat.add Nat.eqb] in *. clear PN PP.
  cbn [seq rev app exec_all] in X1, X2.
  rewrite E0 in X1. cbn [bind exec] in X1. rewrite E1 in X1. cbn [bind exec] in X1. rewrite E2 in X1. cbn [bind exec] in X1.
  rewrite E11 in X2. cbn [bind exec] in X2. rewrite E10 in X2. cbn [bind exec] in X2. rewrite E9 in X2. cbn [bind exec] in X2.
  rewrite E3 in X1. cbn [bind] in X1. destruct (exec_add p3 (state_of gap_phi) _ _ _ _ O3 L3 R3 Z3) as [G3 [F3 V3]]. rewrite F3 in X1. cbn [bind] in X1.
  rewrite E4 in X1. cbn [bind] in X1. destruct (exec_add p4 G3 _ _ _ _ O4 L4 R4 Z4) as [G4 [F4 V4]]. rewrite F4 in X1. cbn [bind] in X1.
  rewrite E5 in X1. cbn [bind] in X1. destruct (exec_add p5 G4 _ _ _ _ O5 L5 R5 Z5) as [G5 [F5 V5]]. rewrite F5 in X1. cbn [bind] in X1.
  rewrite E6 in X1. cbn [bind] in X1. destruct (exec_add p6 G5 _ _ _ _ O6 L6 R6 Z6) as [G6 [F6 V6]]. rewrite F6 in X1. cbn [bind] in X1.
  rewrite E7 in X1. cbn [bind] in X1. destruct (exec_add p7 G6 _ _ _ _ O7 L7 R7 Z7) as [G7 [F7 V7]]. rewrite F7 in X1. cbn [bind] in X1.
  rewrite E8 in X1. cbn [bind] in X1. destruct (exec_add p8 G7 _ _ _ _ O8 L8 R8 Z8) as [G8 [F8 V8]]. rewrite F8 in X1. cbn [bind] in X1.
  rewrite E9 in X1. cbn [bind exec] in X1. rewrite E10 in X1. cbn [bind exec] in X1. rewrite E11 in X1. cbn [bind exec same_res] in X1.
  rewrite E8 in X2. cbn [bind] in X2. destruct (exec_add p8 (state_of gap_phi) _ _ _ _ O8 L8 R8 Z8) as [H8 [F8' W8]]. rewrite F8' in X2. cbn [bind] in X2.
  rewrite E7 in X2. cbn [bind] in X2. destruct (exec_add p7 H8 _ _ _ _ O7 L7 R7 Z7) as [H7 [F7' W7]]. rewrite F7' in X2. cbn [bind] in X2.
  rewrite E6 in X2. cbn [bind] in X2. destruct (exec_add p6 H7 _ _ _ _ O6 L6 R6 Z6) as [H6 [F6' W6]]. rewrite F6' in X2. cbn [bind] in X2.
  rewrite E5 in X2. cbn [bind] in X2. destruct (exec_add p5 H6 _ _ _ _ O5 L5 R5 Z5) as [H5 [F5' W5]]. rewrite F5' in X2. cbn [bind] in X2.
  rewrite E4 in X2. cbn [bind] in X2. destruct (exec_add p4 H5 _ _ _ _ O4 L4 R4 Z4) as [H4 [F4' W4]]. rewrite F4' in X2. cbn [bind] in X2.
  rewrite E3 in X2. cbn [bind] in X2. destruct (exec_add p3 H4 _ _ _ _ O3 L3 R3 Z3) as [H3 [F3' W3]]. rewrite F3' in X2. cbn [bind] in X2.
  rewrite E2 in X2. cbn [bind exec] in X2. rewrite E1 in X2. cbn [bind exec] in X2. rewrite E0 in X2. cbn [bind exec same_res] in X2.
  destruct X1 as [g [X1 T1]]. destruct X2 as [g' [X2 T2]].
  exists m, dphi, g, g', (G8 3), (H3 3), (rev (seq 0 12)). split; [exact Em|]. split; [exact Ed|]. split; [apply Permutation_rev|].
  split; [exact X1|]. split; [exact X2|]. split; [apply (tot_rd 12); [exact T1|lia]|]. split; [apply (tot_rd 12); [exact T2|lia]|].
  assert (S0 : forall c, state_of gap_phi c 0%nat = 1%R) by reflexivity. split.
  - rewrite V8, V7, V6, V5, V4, V3. cbn [Nat.eqb orb]. repeat (rewrite ?V8, ?V7, ?V6, ?V5, ?V4, ?V3, ?W8, ?W7, ?W6, ?W5, ?W4; cbn [Nat.eqb orb]). rewrite ?S0. lra.
  - rewrite W3. cbn [Nat.eqb orb]. rewrite !W4, !W5, !W6. cbn [Nat.eqb orb]. rewrite !W7, !W8. cbn [Nat.eqb orb]. repeat (rewrite ?V8, ?V7, ?V6, ?V5, ?V4, ?V3, ?W8, ?W7, ?W6, ?W5, ?W4; cbn [Nat.eqb orb]). rewrite ?S0. lra.
Qed.
Print Assumptions fill_boundary_schedule_refuted.
