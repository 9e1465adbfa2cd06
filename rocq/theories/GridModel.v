(** Model of /repo/code/cpp/src/etc/grid.cpp: ghost layers and mask dilation.

    Memory is modelled cell by cell: a [Vec] of [ncell * V] doubles is a buffer of [ncell] cells, so the byte
    offset [k * V] is the cell index [k]. [MatMap] views are a base, a stride and a row count; an access to a row
    outside the row count is undefined behaviour, also when the address falls inside the allocation. *)
From Coq Require Import Reals.
From Verif Require Import Base Options Mat3.
Open Scope nat_scope.

(** grid.cpp 5-10 *)
Definition TRANSMISSIVE := 0.
Definition PERIODIC := 1.
Definition SLIP := 2.
Definition STICK := 3.
Definition MOVING := 4.
Definition SYMMETRIC := 5.

Section Grid.
Variable cell : Type.                            (* one state vector *)
Variable GN : nat.                               (* the compile-time N *)
(** what the wall boundary [ty] in direction [d] does to the copied mirror cell (grid.cpp 26-63), see [wall] below *)
Variable wallf : nat -> nat -> cell -> cell.

(** row [r] of a view *)
Definition row (base stride rows : nat) (r : Z) : res nat :=
  if ((r <? 0) || (Z.of_nat rows <=? r))%Z then UB "row out of range" else Ok (base + stride * Z.to_nat r).

(** grid.cpp 12-125. The source rows are read through [rdu], which may read the buffer being written
    (boundaries2, second pass). The second read of [u(.,2)] by MOVING (line 49, 107) sees the cell just copied,
    since ghost rows and interior rows are different cells; it is folded into [wallf]. *)
Definition boundaries1 (rdu : buf cell -> Z -> res cell) (ubase ustride : nat) (nx bt0 bt1 d : nat)
    (ub : buf cell) : res (buf cell) :=
  let copy (src : nat -> Z) (dst : nat -> nat) (w : cell -> cell) (ub : buf cell) : res (buf cell) :=
    for_loop GN 0 (fun i ub =>
      q <- rdu ub (src i) ;;
      a <- row ubase ustride (nx + 2 * GN) (Z.of_nat (dst i)) ;;
      wr ub a (w q)) ub in
  ub <- (let dst i := i in
         if Nat.eqb bt0 TRANSMISSIVE then copy (fun _ => 0%Z) dst (fun q => q) ub
         else if Nat.eqb bt0 PERIODIC then copy (fun i => Z.of_nat nx - Z.of_nat GN + Z.of_nat i)%Z dst (fun q => q) ub
         else if Nat.leb bt0 SYMMETRIC then copy (fun i => Z.of_nat GN - 1 - Z.of_nat i)%Z dst (wallf bt0 d) ub
         else Ok ub) ;;
  (let dst i := i + nx + GN in
   if Nat.eqb bt1 TRANSMISSIVE then copy (fun _ => Z.of_nat nx - 1)%Z dst (fun q => q) ub
   else if Nat.eqb bt1 PERIODIC then copy (fun i => Z.of_nat i) dst (fun q => q) ub
   else if Nat.leb bt1 SYMMETRIC then copy (fun i => Z.of_nat nx - 1 - Z.of_nat i)%Z dst (wallf bt1 d) ub
   else Ok ub).

(** read a row of a view of [b] *)
Definition rdrow (b : buf cell) (base stride rows : nat) (r : Z) : res cell :=
  a <- row base stride rows r ;; rd b a.

(** grid.cpp 127-145 *)
Definition boundaries2 (u ub : buf cell) (nx ny : nat) (bt : nat -> nat) : res (buf cell) :=
  let W := ny + 2 * GN in
  ub <- for_loop ny 0 (fun j ub =>
      boundaries1 (fun _ r => rdrow u j ny nx r) (j + GN) W nx (bt 0) (bt 1) 0 ub) ub ;;
  for_loop (nx + 2 * GN) 0 (fun i ub =>
      boundaries1 (fun ub r => rdrow ub (i * W + GN) 1 ny r) (i * W) 1 ny (bt 2) (bt 3) 1 ub) ub.

(** grid.cpp 147-170. [bt k] is boundaryTypes(k). *)
Definition boundaries (u ub : buf cell) (nX : list nat) (bt : nat -> nat) : res (buf cell) :=
  match nX with
  | [nx] =>
    ub <- for_loop nx 0 (fun i ub => q <- rd u i ;; wr ub (GN + i) q) ub ;;
    boundaries1 (fun _ r => rdrow u 0 1 nx r) 0 1 nx (bt 0) (bt 1) 0 ub
  | [nx; ny] =>
    let W := ny + 2 * GN in
    ub <- for_loop nx 0 (fun i ub =>
        for_loop ny 0 (fun j ub => q <- rd u (i * ny + j) ;; wr ub ((i + GN) * W + GN + j) q) ub) ub ;;
    boundaries2 u ub nx ny bt
  | _ => Ok ub
  end.

(** grid.cpp 172-174 *)
Definition extended_dimensions (nX : list nat) (ext : nat) : nat :=
  fold_right Nat.mul 1 (map (fun n => n + 2 * ext) nX).
End Grid.

(** system/functions/matrices.cpp 43-51. The orthogonal factors [U], [Vt] returned by Eigen's JacobiSVD are
    parameters; [pow(detA, 1/3)] is [Rpower], the same for a positive determinant. *)
Definition destress (U Vt : mat3) (q : vec) : vec :=
  let A : mat3 := fun i j => q (5 + 3 * i + j) in
  let Ag := msub (mscal (2 * Rpower (det3 A) (1 / 3)) (mmul U Vt)) A in
  fun k => if (Nat.leb 5 k && Nat.ltb k 14)%bool then Ag ((k - 5) / 3) ((k - 5) mod 3) else q k.

(** grid.cpp 26-63 on the copied cell [q]; [destress] is applied when the option DESTRESS is set. *)
Definition wall (o : options) (destress : vec -> vec) (ty d : nat) (q : vec) : vec :=
  let neg (k : nat) (q : vec) : vec := upd q k (- q k)%R in
  let ds (q : vec) : vec := if DESTRESS o then destress q else q in
  if Nat.eqb ty SLIP then ds (neg (2 + d) q)
  else if Nat.eqb ty STICK then ds (neg 4 (neg 3 (neg 2 q)))
  else if Nat.eqb ty MOVING then
    let q1 := neg 4 (neg 3 (neg 2 q)) in
    let q2 := upd q1 2 (q1 2%nat + 2 * q1 0%nat)%R in
    ds (upd q2 1 (q2 1%nat + (q2 2%nat * q2 2%nat - q 2%nat * q 2%nat) / (2 * q2 0%nat))%R)
  else (* SYMMETRIC: negate row d, then column d, of A stored at 5 + 3*i + j *)
    let q1 := neg (2 + d) q in
    let negrow q := neg (5 + 3 * d + 2) (neg (5 + 3 * d + 1) (neg (5 + 3 * d) q)) in
    let negcol q := neg (5 + d + 6) (neg (5 + d + 3) (neg (5 + d) q)) in
    negcol (negrow q1).

(** ** mask dilation *)

(** grid.cpp 186-194 *)
Definition extend_mask1 (mask maskb : buf bool) (nx : nat) : res (buf bool) :=
  maskb <- for_loop nx 0 (fun i mb =>
      a <- rd mask i ;;
      b <- (if a then Ok true else if Nat.ltb 0 i then rd mask (i - 1) else Ok false) ;;
      c <- (if b then Ok true else if Nat.ltb i (nx - 1) then rd mask (i + 1) else Ok false) ;;
      wr mb (i + 1) c) maskb ;;
  v <- rd maskb 1 ;; maskb <- wr maskb 0 v ;;
  w <- rd maskb nx ;; wr maskb (nx + 1) w.

(** grid.cpp 214-226: the border loops, executed (with shadowed i, j) inside every iteration *)
Definition mask_border (mask : buf bool) (nx ny : nat) (mb : buf bool) : res (buf bool) :=
  let W := ny + 2 in
  mb <- for_loop nx 0 (fun i mb =>
      a <- rd mask (i * ny) ;; mb <- wr mb ((i + 1) * W) a ;;
      b <- rdZ mask (Z.of_nat (i * ny) + (Z.of_nat ny - 1)) ;; wr mb ((i + 1) * W + (ny + 1)) b) mb ;;
  mb <- for_loop ny 0 (fun j mb =>
      a <- rd mask j ;; mb <- wr mb (j + 1) a ;;
      b <- rdZ mask ((Z.of_nat nx - 1) * Z.of_nat ny + Z.of_nat j) ;; wr mb ((nx + 1) * W + (j + 1)) b) mb ;;
  mb <- wr mb 0 false ;; mb <- wr mb (ny + 1) false ;;
  mb <- wr mb ((nx + 1) * W) false ;; wr mb ((nx + 1) * W + (ny + 1)) false.

(** grid.cpp 196-228 *)
Definition extend_mask2 (mask maskb : buf bool) (nx ny : nat) : res (buf bool) :=
  let W := ny + 2 in
  for_loop nx 0 (fun i mb => for_loop ny 0 (fun j mb =>
      a <- rd mask (i * ny + j) ;;
      a <- (if a then Ok true else if Nat.ltb 0 i then rd mask ((i - 1) * ny + j) else Ok false) ;;
      a <- (if a then Ok true else if Nat.ltb i (nx - 1) then rd mask ((i + 1) * ny + j) else Ok false) ;;
      a <- (if a then Ok true else if Nat.ltb 0 j then rd mask (i * ny + (j - 1)) else Ok false) ;;
      a <- (if a then Ok true else if Nat.ltb j (ny - 1) then rd mask (i * ny + (j + 1)) else Ok false) ;;
      mb <- wr mb ((i + 1) * W + (j + 1)) a ;;
      mask_border mask nx ny mb) mb) maskb.

(** grid.cpp 176-230 *)
Definition extend_mask (mask maskb : buf bool) (nX : list nat) : res (buf bool) :=
  match nX with
  | [nx] => extend_mask1 mask maskb nx
  | [nx; ny] => extend_mask2 mask maskb nx ny
  | _ => Ok maskb
  end.
