(** Model of /repo/code/cpp/src/multi/fill.cpp and of the rest of multi/functions.cpp: interfaces between materials and
    the filling of ghost cells across them.

    A field is a buffer of cells; C++ addresses [ind * V], here the cell index is used. Grids are one- or
    two-dimensional, as in the code: [ny] is 1 for a one-dimensional grid where that makes no difference. *)
From Coq Require Import Reals ZArith.
From Verif Require Import Base Options Mat3 PhysModel FmmModel LevelSetModel UtilsModel.
Import List ListNotations.
Open Scope nat_scope.

(** ** functions.cpp *)
(** 16-54. [nX] has one or two entries. The rows at the edges are copies of their inner neighbours. With fewer than three
    cells in the first direction these are copied before they are written, or the block sizes are negative; with two
    cells in the second direction the copy finds the derivatives of the first direction in the scratch matrix. *)
Definition inner_row (n i : nat) : nat := if Nat.eqb i 0 then 1 else if Nat.eqb i (n - 1) then n - 2 else i.
Definition finite_difference (phi : nat -> R) (dX : nat -> R) (nX : list nat) : res (nat -> nat -> R) :=
  match nX with
  | [nx] =>
    if Nat.ltb nx 3 then UB "finite_difference" else
    Ok (fun ind _ => let k := inner_row nx ind in ((phi (k + 1)%nat - phi (k - 1)%nat) / (2 * dX 0%nat))%R)
  | [nx; ny] =>
    if (Nat.ltb nx 3 || Nat.ltb ny 2)%bool then UB "finite_difference" else
    let tmp0 i j := let k := inner_row nx i in ((phi ((k + 1) * ny + j)%nat - phi ((k - 1) * ny + j)%nat) / (2 * dX 0%nat))%R in
    let tmp1 i j :=
      if Nat.eqb ny 2 then tmp0 i 1
      else let k := inner_row ny j in ((phi (i * ny + (k + 1))%nat - phi (i * ny + (k - 1))%nat) / (2 * dX 1%nat))%R in
    Ok (fun ind d => if Nat.eqb d 0 then tmp0 (ind / ny) (ind mod ny) else tmp1 (ind / ny) (ind mod ny))
  | _ => UB "finite_difference: dimension"
  end.
(** 14; [None] if the gradient is zero, when every component is a NaN *)
Definition norm2 (ndim : nat) (g : nat -> R) : R := fold_right (fun d s => (g d * g d + s)%R) 0%R (seq 0 ndim).
Definition normal (ndim : nat) (g : nat -> R) : option (nat -> R) :=
  if Req_EM_T (norm2 ndim g) 0 then None else Some (fun d => g d / sqrt (norm2 ndim g))%R.
(** 65-81, before the call of [distance]; [u i k] is component [k] of cell [i] *)
Definition indicator (o : options) (nmat mat : nat) (q : vec) : R :=
  let lo := V o - LSET o in
  let p := if Nat.eqb mat 0 then q lo else (- q lo)%R in
  if Nat.ltb 2 nmat then
    let p := fold_left (fun p i => cmax p (- q (lo + i)%nat))%R (seq 1 (mat - 1)) p in
    fold_left (fun p i => cmax p (q (lo + i)%nat))%R (seq mat (LSET o - mat)) p
  else p.
(** 65-81. With LSET = 0 the column is out of range. *)
Definition material_indicator (o : options) (u : nat -> vec) (mat nmat : nat) (dX : list R) (nX : list nat) : res (nat -> R) :=
  if Nat.eqb (LSET o) 0 then UB "material_indicator: no level set" else
  let phi := fun i => indicator o nmat mat (u i) in
  if Nat.ltb 2 nmat then
    b <- distance nX dX phi ;; Ok (fun i => match bdat b i with Some x => x | None => 0%R end)
  else Ok phi.

(** ** fill.cpp *)
(** 11-18 *)
Definition update_interface_mask (phi : buf R) (indL indR : nat) (m : buf Z) : res (buf Z) :=
  a <- rd phi indL ;; b <- rd phi indR ;;
  if Rle_dec (a * b) 0 then m <- wr m indL (sign a) ;; wr m indR (sign b) else Ok m.
(** 29-35 *)
Definition interface_1d (phi : buf R) (nx : nat) (m : buf Z) : res (buf Z) :=
  for_loop (nx - 1) 0 (fun i m => update_interface_mask phi i (i + 1) m) m.
(** 42-70; the four tests and the four updates *)
Definition nonpos (phi : buf R) (ind : nat) : res bool := a <- rd phi ind ;; Ok (if Rle_dec a 0 then true else false).
Definition guarded {A} (b : bool) (x : res A) (d : A) : res A := if b then x else Ok d.
Definition interface_cell (phi : buf R) (nx ny i j : nat) (m : buf Z) : res (buf Z) :=
  let ind0 := i * ny + j in
  p <- nonpos phi ind0 ;;
  if (p : bool) then
    condL <- guarded (Nat.ltb 0 i) (nonpos phi ((i - 1) * ny + j)) false ;;
    condR <- guarded (Nat.ltb i (nx - 1)) (nonpos phi ((i + 1) * ny + j)) false ;;
    condD <- guarded (Nat.ltb 0 j) (nonpos phi (i * ny + (j - 1))) false ;;
    condU <- guarded (Nat.ltb j (ny - 1)) (nonpos phi (i * ny + (j + 1))) false ;;
    if (condL || condR || condD || condU : bool) then
      m <- guarded (Nat.ltb 0 i) (update_interface_mask phi ind0 ((i - 1) * ny + j) m) m ;;
      m <- guarded (Nat.ltb i (nx - 1)) (update_interface_mask phi ind0 ((i + 1) * ny + j) m) m ;;
      m <- guarded (Nat.ltb 0 j) (update_interface_mask phi ind0 (i * ny + (j - 1)) m) m ;;
      guarded (Nat.ltb j (ny - 1)) (update_interface_mask phi ind0 (i * ny + (j + 1)) m) m
    else wr m ind0 (-2)%Z
  else Ok m.
(** 20-74 *)
Definition zeros (n : nat) : buf Z := mkbuf n (fun _ => Some 0%Z).
Definition find_interface_cells (phi : buf R) (nX : list nat) : res (buf Z) :=
  match nX with
  | [nx] => interface_1d phi nx (zeros nx)
  | [nx; ny] => for_loop nx 0 (fun i m => for_loop ny 0 (fun j m => interface_cell phi nx ny i j m) m) (zeros (nx * ny))
  | _ => Ok (zeros (fold_right Nat.mul 1 nX))
  end.

(** 76-94: -1 or the last of the left, right, lower and upper neighbours that carries the label *)
Definition has_label (m : buf Z) (ind : nat) (N0 : Z) : res bool := a <- rd m ind ;; Ok (Z.eqb a N0).
Definition neighbor_index (m : buf Z) (i j nx ny : nat) (N0 : Z) : res Z :=
  let look (b : bool) (ind : nat) (r : Z) : res Z :=
    c <- guarded b (has_label m ind N0) false ;; Ok (if (c : bool) then Z.of_nat ind else r) in
  r <- look (Nat.ltb 0 i) ((i - 1) * ny + j) (-1)%Z ;;
  r <- look (Nat.ltb i (nx - 1)) ((i + 1) * ny + j) r ;;
  r <- look (Nat.ltb 0 j) (i * ny + (j - 1)) r ;;
  look (Nat.ltb j (ny - 1)) (i * ny + (j + 1)) r.

(** conversion of a double to an int: towards zero; the cast of a NaN is undefined *)
Definition trunc (x : R) : Z := if Rle_dec 0 x then Int_part x else (- Int_part (- x))%Z.
(** 7-9: the cell at integer coordinates *)
Definition lin (nX : list nat) (v : nat -> Z) : Z :=
  match nX with [_; ny] => (v 0%nat * Z.of_nat ny + v 1%nat)%Z | _ => v 0%nat end.

(** 96-132: the cells of the interface point and of the left and right probes *)
Definition probe (inds : nat -> nat) (phi : R) (n dX : nat -> R) (s : R) (d : nat) : Z :=
  let xp := ((INR (inds d) + / 2) * dX d)%R in
  let xi := (xp - phi * n d)%R in
  trunc ((xi + s * dX d * n d) / dX d)%R.
Definition boundary_inds (inds : nat -> nat) (phi : R) (n dX : nat -> R) (nX : list nat) : Z * Z * Z :=
  (lin nX (probe inds phi n dX 0), lin nX (probe inds phi n dX (-1)), lin nX (probe inds phi n dX 1)).

(** element assignment in a std::vector *)
Definition put {A} (l : list A) (i : nat) (x : A) : res (list A) :=
  if Nat.ltb i (List.length l) then Ok (firstn i l ++ x :: skipn (S i) l) else UB "vector out of range".

Section Fill.
Variable o : options.
(** left_star_state (system/multi/riemann.cpp, see RiemannModel), with its normal *)
Variable star : vec -> vec -> matpar -> matpar -> R -> (nat -> R) -> res vec.
Variables (dX : nat -> R) (nX : list nat) (MPs : list matpar) (dt : R).
Notation ndim := (List.length nX).
Definition sgn (x : R) : Z := if Rlt_dec 0 x then 1%Z else if Rlt_dec x 0 then (-1)%Z else 0%Z.
(** the material components of [c], the level sets of [q] *)
Definition put_head (q c : vec) : vec := setseg q 0 (V o - LSET o) c.
Definition mat_at (g : buf vec) (ind : Z) : res nat := q <- rdZ g ind ;; Ok (get_material_index o q).

(** 156-189: the left state when neither the interface cell nor the left probe is of the material *)
Definition left_fallback (g : buf vec) (inds : nat -> nat) (mat : nat) (n : nat -> R) (indn : Z) : res (vec * (nat -> R)) :=
  if Nat.ltb ndim 2 then UB "fill_boundary_inner: n(1)" else
  let n0 := sgn (n 0%nat) in let n1 := sgn (n 1%nat) in
  let ax0 : nat -> R := fun d => if Nat.eqb d 0 then IZR n0 else 0%R in
  let ax1 : nat -> R := fun d => if Nat.eqb d 0 then 0%R else IZR n1 in
  let at0 := lin nX (fun d => if Nat.eqb d 0 then (Z.of_nat (inds 0%nat) - n0)%Z else Z.of_nat (inds 1%nat)) in
  let at1 := lin nX (fun d => if Nat.eqb d 0 then Z.of_nat (inds 0%nat) else (Z.of_nat (inds 1%nat) - n1)%Z) in
  ' (Lind, n') <-
    (if Rlt_dec (Rabs (n 1)) (Rabs (n 0)) then
       k <- mat_at g at0 ;; Ok (if Nat.eqb k mat then (at0, ax0) else (at1, ax1))
     else
       k <- mat_at g at1 ;; Ok (if Nat.eqb k mat then (at1, ax1) else (at0, ax0))) ;;
  k <- mat_at g Lind ;;
  q <- rdZ g (if Nat.eqb k mat then Lind else indn) ;;
  Ok (q, n').
(** 134-198 *)
Definition fill_boundary_inner (g : buf vec) (inds : nat -> nat) (phi : R) (mat : nat) (n : nat -> R) (indn : Z) : res (buf vec) :=
  let '(interf, L, Rr) := boundary_inds inds phi n dX nX in
  let ind := lin nX (fun d => Z.of_nat (inds d)) in
  QR <- rdZ g Rr ;;
  let miR := get_material_index o QR in
  mi <- mat_at g interf ;;
  ' (QL, n) <-
    (if Nat.eqb mi mat then QL <- rdZ g interf ;; Ok (QL, n)
     else mL <- mat_at g L ;;
          if Nat.eqb mL mat then QL <- rdZ g L ;; Ok (QL, n)
          else left_fallback g inds mat n indn) ;;
  ML <- get MPs mat ;; MR <- get MPs miR ;;
  QL' <- star QL QR ML MR dt n ;;
  q <- rdZ g ind ;; g <- wrZ g ind (put_head q QL') ;;
  mi <- mat_at g interf ;;
  if Nat.eqb mi mat then Ok g
  else q <- rdZ g interf ;; wrZ g interf (put_head q QL').

(** the body of the loops 208-216 and 221-233 for cell [ind]; a zero gradient makes the normal a NaN, whose
    conversion to an index is undefined *)
Definition coords (ind : nat) : nat -> nat :=
  match nX with [_; ny] => fun d => if Nat.eqb d 0 then ind / ny else ind mod ny | _ => fun _ => ind end.
Definition fill_boundary_cell (m : buf Z) (mat : nat) (phi : buf R) (dphi : nat -> nat -> R) (ind : nat) (g : buf vec) : res (buf vec) :=
  b <- rd m ind ;;
  if Z.eqb b 1 then
    indn <- (match nX with [nx; ny] => neighbor_index m (ind / ny) (ind mod ny) nx ny (-1) | _ => Ok (-1)%Z end) ;;
    p <- rd phi ind ;;
    match normal ndim (dphi ind) with
    | None => UB "cast of a NaN"
    | Some n => fill_boundary_inner g (coords ind) p mat n indn
    end
  else Ok g.
(** 200-235, the cells taken in the order of [order]; the sequential program takes them in order, the OpenMP loop of the
    two-dimensional case in any order (and possibly interleaved) *)
Definition fill_boundary_order (order : list nat) (m : buf Z) (mat : nat) (phi : buf R) (dphi : nat -> nat -> R) (g : buf vec) : res (buf vec) :=
  fold_res (fill_boundary_cell m mat phi dphi) order g.
Definition fill_boundary_cells (ncell : nat) := fill_boundary_order (seq 0 ncell).

(** 237-265 *)
Definition fill_neighbor_inner (g : buf vec) (dphi : nat -> R) (inds : nat -> nat) (m : buf Z) (indn : Z) : res (buf vec) :=
  match normal ndim dphi with
  | None => UB "cast of a NaN"
  | Some n =>
    let ind := lin nX (fun d => Z.of_nat (inds d)) in
    let newInd := lin nX (fun d => trunc (((INR (inds d) + / 2) * dX d - dX d * n d) / dX d)%R) in
    b <- rdZ m newInd ;;
    let newInd := if (b <? 1)%Z then indn else newInd in
    c <- rdZ g newInd ;; q <- rdZ g ind ;; wrZ g ind (put_head q c)
  end.
(** 278-299, one cell of one round in one dimension *)
Definition neighbor_1d (nx i : nat) (m : buf Z) (N0 : Z) : res Z :=
  c <- guarded (Nat.ltb 0 i) (has_label m (i - 1) N0) false ;;
  d <- guarded (Nat.ltb i (nx - 1)) (has_label m (i + 1) N0) false ;;
  Ok (if (d : bool) then Z.of_nat (i + 1) else if (c : bool) then Z.of_nat (i - 1) else (-1)%Z).
Definition layer_cell_1d (dphi : nat -> nat -> R) (nx : nat) (N0 : Z) (i : nat) (s : buf vec * buf Z) : res (buf vec * buf Z) :=
  let '(g, m) := s in
  b <- rd m i ;;
  if Z.eqb b 0 then
    indn <- neighbor_1d nx i m N0 ;;
    if (-1 <? indn)%Z then
      m <- wr m i (N0 + 1)%Z ;;
      g <- fill_neighbor_inner g (dphi i) (coords i) m indn ;; Ok (g, m)
    else Ok (g, m)
  else Ok (g, m).
(** 303-323, in two dimensions (the two loops as one over the cell index), with the list of isolated cells met *)
Definition layer_cell_2d (dphi : nat -> nat -> R) (nx ny : nat) (N0 : Z) (ind : nat) (s : buf vec * buf Z * list nat) : res (buf vec * buf Z * list nat) :=
  let '(g, m, iso) := s in
  b <- rd m ind ;;
  if (Z.eqb b 0 || Z.eqb b (-2))%bool then
    indn <- neighbor_index m (ind / ny) (ind mod ny) nx ny N0 ;;
    if (-1 <? indn)%Z then
      let iso := if Z.eqb b (-2) then iso ++ [ind] else iso in
      m <- wr m ind (N0 + 1)%Z ;;
      g <- fill_neighbor_inner g (dphi ind) (coords ind) m indn ;; Ok (g, m, iso)
    else Ok (g, m, iso)
  else Ok (g, m, iso).
(** one round *)
Definition layer (dphi : nat -> nat -> R) (N0 : Z) (s : buf vec * buf Z) : res (buf vec * buf Z) :=
  match nX with
  | [nx] => for_loop nx 0 (layer_cell_1d dphi nx N0) s
  | [nx; ny] =>
    ' (g, m, iso) <- for_loop (nx * ny) 0 (layer_cell_2d dphi nx ny N0) (s, []) ;;
    m <- fold_res (fun i m => wr m i (-2)%Z) iso m ;; Ok (g, m)
  | _ => Ok s
  end.
(** 267-328 *)
Definition EXPANSION_FACTOR := 10.
Definition fill_neighbor_cells (dphi : nat -> nat -> R) (s : buf vec * buf Z) : res (buf vec * buf Z) :=
  for_loop (EXPANSION_FACTOR * Options.N o - 1) 1 (fun N0 s => layer dphi (Z.of_nat N0) s) s.

(** 330-370. [u] holds the cells; the second components are the masks. A material without an equation of state (a void)
    keeps its grid and gets an empty mask. *)
Variable dXl : list R.
Definition mask_cell (phi : R) (b : Z) : bool :=
  ((if Rle_dec phi 0 then negb (Z.eqb b (-2)) else false) || Z.eqb b 1)%bool.
Definition restore_levelsets (u : nat -> vec) (g : buf vec) : buf vec :=
  mkbuf (blen g) (fun i => option_map (fun c => setseg c (V o - LSET o) (LSET o) (fun k => u i (V o - LSET o + k))) (bdat g i)).
Definition fill_material (ncell nmat mat : nat) (u : nat -> vec) : res (buf vec * (nat -> bool)) :=
  let g := mkbuf ncell (fun i => Some (u i)) in
  phi <- material_indicator o u mat nmat dXl nX ;;
  dphi <- finite_difference phi dX nX ;;
  let phib := mkbuf ncell (fun i => Some (phi i)) in
  m <- find_interface_cells phib nX ;;
  g <- fill_boundary_cells ncell m mat phib dphi g ;;
  ' (g, m) <- fill_neighbor_cells dphi (g, m) ;;
  Ok (restore_levelsets u g, fun j => match bdat m j with Some b => mask_cell (phi j) b | None => false end).
Definition fill_ghost_cells (ncell : nat) (u : nat -> vec) (grids : list (buf vec)) (masks : list (nat -> bool)) :
  res ((nat -> vec) * list (buf vec) * list (nat -> bool)) :=
  u <- renormalize_levelsets o u dXl nX ;;
  ' (grids, masks) <- for_loop (List.length grids) 0 (fun mat '(grids, masks) =>
    M <- get MPs mat ;;
    if mp_void M then masks <- put masks mat (fun _ => false) ;; Ok (grids, masks)
    else
      ' (g, mk) <- fill_material ncell (List.length grids) mat u ;;
      grids <- put grids mat g ;; masks <- put masks mat mk ;; Ok (grids, masks)) (grids, masks) ;;
  Ok (u, grids, masks).
End Fill.
