(** Properties C09-C13: ghost layers, walls, masks. *)
From Coq Require Import Reals Lra.
From Verif Require Import Base Options Mat3 GridModel GridSpec GridProof GridProof2.
Open Scope nat_scope.

(** C09, C10, C11, C12 (geometry), 1-D: [boundaries] succeeds, writes every cell of the extended array, and every
    cell has the value the specification [extend1] gives to its signed coordinate. *)
Theorem boundaries_1d_correct (cell : Type) GN wallf (u ub : buf cell) nx bt f :
  GN <= nx -> 0 < nx -> (forall k, k < 2 -> bt k <= 5) ->
  blen u = nx -> (forall i, i < nx -> bdat u i = Some (f i)) ->
  blen ub = extended_dimensions [nx] GN ->
  exists ub', boundaries cell GN wallf u ub [nx] bt = Ok ub' /\ blen ub' = nx + 2 * GN /\
    forall i, i < nx + 2 * GN ->
      bdat ub' i = Some (extend1 cell wallf (bt 0) (bt 1) 0 (Z.of_nat nx) (fun x => f (Z.to_nat x)) (Z.of_nat i - Z.of_nat GN)%Z).
Proof. exact (boundaries_1d cell GN wallf u ub nx bt f). Qed.
Print Assumptions boundaries_1d_correct.

Theorem boundaries_2d_correct (cell : Type) GN wallf (u ub : buf cell) nx ny bt f :
  GN <= nx -> 0 < nx -> GN <= ny -> 0 < ny -> (forall k, k < 4 -> bt k <= 5) ->
  blen u = nx * ny -> (forall i j, i < nx -> j < ny -> bdat u (i * ny + j) = Some (f i j)) ->
  blen ub = extended_dimensions [nx; ny] GN ->
  exists ub', boundaries cell GN wallf u ub [nx; ny] bt = Ok ub' /\ blen ub' = (nx + 2 * GN) * (ny + 2 * GN) /\
    forall i j, i < nx + 2 * GN -> j < ny + 2 * GN ->
      bdat ub' (i * (ny + 2 * GN) + j) =
      Some (extend2 cell wallf bt (Z.of_nat nx) (Z.of_nat ny) (fun x y => f (Z.to_nat x) (Z.to_nat y))
             (Z.of_nat i - Z.of_nat GN)%Z (Z.of_nat j - Z.of_nat GN)%Z).
Proof. exact (boundaries_2d cell GN wallf u ub nx ny bt f). Qed.
Print Assumptions boundaries_2d_correct.

(** C09: the interior block of the extended array is [u]. *)
Theorem boundaries_interior (cell : Type) GN wallf (u ub : buf cell) nx ny bt f :
  GN <= nx -> 0 < nx -> GN <= ny -> 0 < ny -> (forall k, k < 4 -> bt k <= 5) ->
  blen u = nx * ny -> (forall i j, i < nx -> j < ny -> bdat u (i * ny + j) = Some (f i j)) ->
  blen ub = extended_dimensions [nx; ny] GN ->
  exists ub', boundaries cell GN wallf u ub [nx; ny] bt = Ok ub' /\
    forall i j, i < nx -> j < ny -> bdat ub' ((i + GN) * (ny + 2 * GN) + (j + GN)) = Some (f i j).
Proof.
  intros H1 H2 H3 H4 Hb Lu Du Lub.
  destruct (boundaries_2d cell GN wallf u ub nx ny bt f H1 H2 H3 H4 Hb Lu Du Lub) as [ub' [E [_ W]]].
  exists ub'. split; [exact E|]. intros i j Hi Hj. rewrite W by lia. unfold extend2, extend1.
  replace (Z.of_nat (i + GN) - Z.of_nat GN)%Z with (Z.of_nat i) by lia.
  replace (Z.of_nat (j + GN) - Z.of_nat GN)%Z with (Z.of_nat j) by lia.
  destruct (Z.ltb_spec (Z.of_nat j) 0); [lia|]. destruct (Z.ltb_spec (Z.of_nat j) (Z.of_nat ny)); [|lia].
  destruct (Z.ltb_spec (Z.of_nat i) 0); [lia|]. destruct (Z.ltb_spec (Z.of_nat i) (Z.of_nat nx)); [|lia].
  now rewrite !Nat2Z.id.
Qed.
Print Assumptions boundaries_interior.

(** C10, second half: with fewer than N cells every non-transmissive left boundary reads out of range. *)
Theorem boundaries_small (cell : Type) GN wallf (u ub : buf cell) nx bt :
  0 < nx -> nx < GN -> blen u = nx -> (forall i, i < nx -> exists c, bdat u i = Some c) ->
  blen ub = extended_dimensions [nx] GN -> 1 <= bt 0 <= 5 ->
  is_ub (boundaries cell GN wallf u ub [nx] bt).
Proof. exact (boundaries_small_lemma cell GN wallf u ub nx bt). Qed.
Print Assumptions boundaries_small.

(** C11: with periodic boundaries the extended array is the periodic extension, corners included. *)
Theorem boundaries_periodic (cell : Type) GN wallf (u ub : buf cell) nx ny bt f :
  GN <= nx -> 0 < nx -> GN <= ny -> 0 < ny -> (forall k, k < 4 -> bt k = PERIODIC) ->
  blen u = nx * ny -> (forall i j, i < nx -> j < ny -> bdat u (i * ny + j) = Some (f i j)) ->
  blen ub = extended_dimensions [nx; ny] GN ->
  exists ub', boundaries cell GN wallf u ub [nx; ny] bt = Ok ub' /\
    forall i j, i < nx + 2 * GN -> j < ny + 2 * GN ->
      bdat ub' (i * (ny + 2 * GN) + j) =
      Some (f (Z.to_nat ((Z.of_nat i - Z.of_nat GN) mod Z.of_nat nx)) (Z.to_nat ((Z.of_nat j - Z.of_nat GN) mod Z.of_nat ny))).
Proof.
  intros H1 H2 H3 H4 Hb Lu Du Lub.
  destruct (boundaries_2d cell GN wallf u ub nx ny bt f H1 H2 H3 H4) as [ub' [E [_ W]]]; auto.
  { intros k Hk. rewrite (Hb k Hk). unfold PERIODIC. lia. }
  exists ub'. split; [exact E|]. intros i j Hi Hj. rewrite W by lia. f_equal.
  assert (P : forall (n : nat) d (g : Z -> cell) x, 0 < n -> (- Z.of_nat n <= x)%Z ->
      extend1 cell wallf 1 1 d (Z.of_nat n) g x = g (x mod Z.of_nat n)%Z).
  { intros n d g x Hn Hx. unfold extend1. destruct (Z.ltb_spec x 0); [reflexivity|].
    destruct (Z.ltb_spec x (Z.of_nat n)); [|reflexivity]. now rewrite Z.mod_small by lia. }
  unfold extend2. rewrite !Hb by lia. unfold PERIODIC. rewrite !P by lia. reflexivity.
Qed.
Print Assumptions boundaries_periodic.

(** C11: with transmissive boundaries every ghost, corners included, is the nearest interior cell. *)
Theorem boundaries_transmissive (cell : Type) GN wallf (u ub : buf cell) nx ny bt f :
  GN <= nx -> 0 < nx -> GN <= ny -> 0 < ny -> (forall k, k < 4 -> bt k = TRANSMISSIVE) ->
  blen u = nx * ny -> (forall i j, i < nx -> j < ny -> bdat u (i * ny + j) = Some (f i j)) ->
  blen ub = extended_dimensions [nx; ny] GN ->
  exists ub', boundaries cell GN wallf u ub [nx; ny] bt = Ok ub' /\
    forall i j, i < nx + 2 * GN -> j < ny + 2 * GN ->
      bdat ub' (i * (ny + 2 * GN) + j) = Some (f (Nat.min (i - GN) (nx - 1)) (Nat.min (j - GN) (ny - 1))).
Proof.
  intros H1 H2 H3 H4 Hb Lu Du Lub.
  destruct (boundaries_2d cell GN wallf u ub nx ny bt f H1 H2 H3 H4) as [ub' [E [_ W]]]; auto.
  { intros k Hk. rewrite (Hb k Hk). unfold TRANSMISSIVE. lia. }
  exists ub'. split; [exact E|]. intros i j Hi Hj. rewrite W by lia. f_equal.
  assert (P : forall n k d (g : Z -> cell), 0 < n ->
      extend1 cell wallf 0 0 d (Z.of_nat n) g (Z.of_nat k - Z.of_nat GN)%Z = g (Z.of_nat (Nat.min (k - GN) (n - 1)))).
  { intros n k d g Hn. unfold extend1. destruct (Z.ltb_spec (Z.of_nat k - Z.of_nat GN) 0).
    - cbn. f_equal. lia.
    - destruct (Z.ltb_spec (Z.of_nat k - Z.of_nat GN) (Z.of_nat n)); cbn; f_equal; lia. }
  unfold extend2. rewrite !Hb by lia. unfold TRANSMISSIVE. rewrite !P by lia. rewrite !Nat2Z.id. reflexivity.
Qed.
Print Assumptions boundaries_transmissive.

(** C12: what a wall does to the mirrored cell (option DESTRESS off, as shipped). *)
Theorem wall_momentum_partial o U Vt d q : DESTRESS o = false -> d < 3 ->
  (forall k, wall o (destress U Vt) SLIP d q k = (if Nat.eqb k (2 + d) then - q k else q k)%R) /\
  (forall k, wall o (destress U Vt) STICK d q k = (if Nat.leb 2 k && Nat.leb k 4 then - q k else q k)%R) /\
  (forall k, k <> 1 -> wall o (destress U Vt) MOVING d q k =
     (if Nat.eqb k 2 then 2 * q 0%nat - q 2%nat else if Nat.eqb k 3 || Nat.eqb k 4 then - q k else q k)%R) /\
  (forall k, ~ (5 <= k < 14) -> wall o (destress U Vt) SYMMETRIC d q k = (if Nat.eqb k (2 + d) then - q k else q k)%R) /\
  (forall i j, i < 3 -> j < 3 ->
     wall o (destress U Vt) SYMMETRIC d q (5 + 3 * i + j) = (flip d i * flip d j * q (5 + 3 * i + j)%nat)%R).
Proof. exact (wall_momentum o U Vt d q). Qed.
Print Assumptions wall_momentum_partial.

(** density, internal-plus-strain energy, and the strain invariants are those of the mirror cell *)
Theorem wall_energy_partial o U Vt ty d q : DESTRESS o = false -> d < 3 -> 2 <= ty <= 5 -> q 0 <> 0%R ->
  let g := wall o (destress U Vt) ty d q in
  g 0 = q 0 /\ (g 1%nat - kinetic g = q 1%nat - kinetic q)%R /\ same_strain (distortion g) (distortion q) /\
  (forall k, 14 <= k -> g k = q k).
Proof. exact (wall_energy o U Vt ty d q). Qed.
Print Assumptions wall_energy_partial.

(** C12 through the API: after [boundaries] with wall types on both sides, ghost [i] on the left is built from interior
    cell N-1-i, ghost [i] on the right from interior cell nx-1-i, with the same density, energy and strain. *)
Theorem boundaries_wall_partial o U Vt (u ub : buf vec) nx bt f :
  DESTRESS o = false -> N o <= nx -> 0 < nx -> (forall k, k < 2 -> 2 <= bt k <= 5) ->
  blen u = nx -> (forall i, i < nx -> bdat u i = Some (f i)) -> (forall i, i < nx -> f i 0 <> 0%R) ->
  blen ub = extended_dimensions [nx] (N o) ->
  exists ub', boundaries vec (N o) (wall o (destress U Vt)) u ub [nx] bt = Ok ub' /\
    let mirrors (g q : vec) := g 0 = q 0 /\ (g 1%nat - kinetic g = q 1%nat - kinetic q)%R /\
          same_strain (distortion g) (distortion q) /\ (forall k, 14 <= k -> g k = q k) in
    forall i, i < N o -> exists gl gr, bdat ub' i = Some gl /\ bdat ub' (nx + N o + i) = Some gr /\
      mirrors gl (f (N o - 1 - i)) /\ mirrors gr (f (nx - 1 - i)).
Proof.
  intros HD H1 H2 Hb Lu Du Hq Lub.
  destruct (boundaries_1d vec (N o) (wall o (destress U Vt)) u ub nx bt f H1 H2) as [ub' [E [_ W]]]; auto.
  { intros k Hk. destruct (Hb k Hk); lia. }
  exists ub'. split; [exact E|]. cbv zeta. intros i Hi.
  pose proof (Hb 0 ltac:(lia)) as B0. pose proof (Hb 1 ltac:(lia)) as B1.
  exists (wall o (destress U Vt) (bt 0) 0 (f (N o - 1 - i))), (wall o (destress U Vt) (bt 1) 0 (f (nx - 1 - i))).
  split; [|split; [|split]].
  - rewrite W by lia. f_equal. unfold extend1. destruct (Z.ltb_spec (Z.of_nat i - Z.of_nat (N o)) 0); [|lia].
    unfold ghost. destruct (bt 0) as [|[|b]]; try lia. do 2 f_equal. lia.
  - rewrite W by lia. f_equal. unfold extend1. destruct (Z.ltb_spec (Z.of_nat (nx + N o + i) - Z.of_nat (N o)) 0); [lia|].
    destruct (Z.ltb_spec (Z.of_nat (nx + N o + i) - Z.of_nat (N o)) (Z.of_nat nx)); [lia|].
    unfold ghost. destruct (bt 1) as [|[|b]]; try lia. do 2 f_equal. lia.
  - apply wall_energy; auto; try lia. apply Hq. lia.
  - apply wall_energy; auto; try lia. apply Hq. lia.
Qed.
Print Assumptions boundaries_wall_partial.

(** With DESTRESS on the claim is false: for A = diag(1,1,8), whose singular value decomposition has U = V = I, the slip
    wall changes the strain and leaves total and kinetic energy, so the internal energy of the ghost differs. *)
Theorem wall_energy_refuted :
  distortion q_stressed 0 0 = 1%R /\
  meq (mmul (mtr id3) id3) id3 /\
  meq (distortion q_stressed) (mmul (mmul id3 (fun i j => distortion q_stressed i i * delta i j)%R) id3) /\
  let g := wall destress_on (destress id3 id3) SLIP 0 q_stressed in
  g 1 = q_stressed 1 /\ kinetic g = kinetic q_stressed /\
  ~ same_strain (distortion g) (distortion q_stressed).
Proof. exact destress_strain. Qed.
Print Assumptions wall_energy_refuted.

(** C13, 1-D: an interior cell is marked exactly when it or a face neighbour is masked; each ghost copies the cell
    next to it (so it is marked when that cell is masked). *)
Theorem extend_mask_1d nx (mask maskb : buf bool) m :
  0 < nx -> blen mask = nx -> (forall i, i < nx -> bdat mask i = Some (m i)) -> blen maskb = nx + 2 ->
  exists mb, extend_mask mask maskb [nx] = Ok mb /\ blen mb = nx + 2 /\
    exists v, (forall a, a < nx + 2 -> bdat mb a = Some (v a)) /\
      (forall i, i < nx -> (v (i + 1) = true <-> near1 nx m (Z.of_nat i))) /\ v 0 = v 1 /\ v (nx + 1) = v nx.
Proof. intros H L D Lb. exact (extend_mask1_ok nx mask m L D maskb H Lb). Qed.
Print Assumptions extend_mask_1d.

(** C13, 2-D: every cell of the extended frame, ghosts and corners included, is marked exactly when it is masked or
    shares a face with a masked cell. *)
Theorem extend_mask_2d nx ny (mask maskb : buf bool) m :
  0 < nx -> 0 < ny -> blen mask = nx * ny ->
  (forall i j, i < nx -> j < ny -> bdat mask (i * ny + j) = Some (m i j)) ->
  blen maskb = (nx + 2) * (ny + 2) ->
  exists mb, extend_mask mask maskb [nx; ny] = Ok mb /\ blen mb = (nx + 2) * (ny + 2) /\
    exists v, (forall i j, i < nx + 2 -> j < ny + 2 -> bdat mb (i * (ny + 2) + j) = Some (v i j)) /\
      (forall i j, i < nx + 2 -> j < ny + 2 -> (v i j = true <-> near2 nx ny m (Z.of_nat i - 1) (Z.of_nat j - 1))).
Proof. intros Hx Hy L D. exact (extend_mask2_ok nx ny mask m Hx Hy L D maskb). Qed.
Print Assumptions extend_mask_2d.

(** ** the hypotheses are met, and the functions run *)
Definition u23 : buf nat := mkbuf 6 (fun a => Some (10 * (a / 3) + a mod 3)).
Example boundaries_hyps :
  (forall i j, i < 2 -> j < 3 -> bdat u23 (i * 3 + j) = Some (10 * i + j)) /\
  match boundaries nat 2 (fun ty d c => 1000 * ty + 100 * d + c) u23 (balloc 42) [2; 3] (fun k => match k with 0 => PERIODIC | 1 => TRANSMISSIVE | 2 => SLIP | _ => STICK end) with
  | Ok b => map (bdat b) (seq 0 42) =
    map Some [2101; 2100; 0; 1; 2; 3102; 3101;  2111; 2110; 10; 11; 12; 3112; 3111;
     2101; 2100; 0; 1; 2; 3102; 3101;  2111; 2110; 10; 11; 12; 3112; 3111;
     2111; 2110; 10; 11; 12; 3112; 3111; 2111; 2110; 10; 11; 12; 3112; 3111]
  | _ => False end.
Proof.
  split; [|vm_compute; reflexivity]. intros i j Hi Hj.
  do 2 (destruct i as [|i]; [do 3 (destruct j as [|j]; [reflexivity|]); lia|]). lia.
Qed.

Example mask_hyps :
  match extend_mask (mkbuf 6 (fun a => Some (Nat.eqb a 5))) (balloc 20) [2; 3] with
  | Ok b => map (bdat b) (seq 0 20) = map Some
      [false; false; false; false; false;  false; false; false; true; false;
       false; false; true; true; true; false; false; false; true; false]
  | _ => False end.
Proof. vm_compute. reflexivity. Qed.

Example wall_hyps : DESTRESS shipped = false /\ q_stressed 0 <> 0%R.
Proof. split; [reflexivity|]. cbn. lra. Qed.
