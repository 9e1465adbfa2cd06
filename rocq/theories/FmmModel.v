(** Model of the fast marching distance computation:
    /repo/code/cpp/include/skfmm/base_marcher.{h,cpp}, distance_marcher.cpp and
    /repo/code/cpp/src/multi/pfmm.cpp.

    Simplifications, all licensed by pfmm.cpp 14-21 (the only caller): order_ = 1,
    narrow_ = 0, periodic_ = 0, self_test_ = false, no point starts as Mask.
    [double] is R (exact arithmetic). [phi_] is a total function; it is only read at
    addresses for which a flag has been read in range. *)
From Coq Require Export Reals Lra.
From Verif Require Export Base HeapModel.
Open Scope nat_scope.

Definition Rltb (a b : R) : bool := if Rlt_dec a b then true else false.
Definition Reqb (a b : R) : bool := if Req_EM_T a b then true else false.

(** base_marcher.h 11: numeric_limits<double>::epsilon() *)
Definition doubleEpsilon : R := (/ 2 ^ 52)%R.
(** base_marcher.h 12: numeric_limits<double>::max() *)
Definition maxDouble : R := ((2 - / 2 ^ 52) * 2 ^ 1023)%R.

(** base_marcher.h 4-7 *)
Inductive flg := Far | Narrow | Frozen | Mask.
Definition flg_eqb (a b : flg) : bool :=
  match a, b with Far, Far | Narrow, Narrow | Frozen, Frozen | Mask, Mask => true | _, _ => false end.

Section Marcher.
Variable shape : list nat.      (* shape_ *)
Variable dX : list R.           (* dx_    *)
Variable phi : nat -> R.        (* phi_   *)

(** base_marcher.cpp 23-34 *)
Definition dim_ : nat := List.length shape.
Definition size_ : nat := fold_right Nat.mul 1 shape.
Definition idx2 (d : nat) : R := (1 / nth d dX 0 / nth d dX 0)%R.
(** base_marcher.cpp 35-40 *)
Fixpoint shifts (s : list nat) : list nat :=
  match s with [] => [] | _ :: t => fold_right Nat.mul 1 t :: shifts t end.
Definition shift_ (d : nat) : nat := nth d (shifts shape) 0.

(** base_marcher.h 33-41 *)
Fixpoint setIndex (sh : list nat) (rem : nat) : list nat :=
  match sh with [] => [] | s :: t => (rem / s) :: setIndex t (rem - (rem / s) * s) end.
Definition coord (current d : nat) : nat := nth d (setIndex (shifts shape) current) 0.

(** base_marcher.h 69-92, [periodic_] = 0; [None] is the C++ -1 *)
Definition getN (fl : buf flg) (current dim : nat) (dir : Z) (flag : flg) : res (option nat) :=
  let newc := (Z.of_nat (coord current dim) + dir)%Z in
  if ((newc >=? Z.of_nat (nth dim shape 0%nat)) || (newc <? 0%Z))%Z then Ok None else
  let newa := (Z.of_nat current + dir * Z.of_nat (shift_ dim))%Z in
  f <- rdZ fl newa ;;
  if flg_eqb f flag then Ok None else Ok (Some (Z.to_nat newa)).

(** the two directions of [for (int j = -1; j < 2; j += 2)] *)
Definition dirs : list Z := [(-1)%Z; 1%Z].
Definition dims : list nat := seq 0 dim_.

Record st := mkst {
  fl : buf flg;          (* flag_     *)
  ds : buf R;            (* distance_ *)
  hq : buf nat;          (* heapptr_  *)
  pq : heap R            (* heap_     *)
}.

(** distance_marcher.cpp 72-88 *)
Definition solveQuadratic (i : nat) (a b c0 : R) : R :=
  let c := (c0 - 1)%R in
  let det := (b ^ 2 - 4 * a * c)%R in
  if Rlt_dec 0 det then
    let r0 := ((- b + sqrt det) / 2 / a)%R in
    let r1 := ((- b - sqrt det) / 2 / a)%R in
    if Rlt_dec doubleEpsilon (phi i) then r0 else r1
  else 0%R.

(** distance_marcher.cpp 11-19: best frozen neighbour value of point [i] in dimension [dim] *)
Definition best (s_fl : buf flg) (s_ds : buf R) (i dim : nat) : res R :=
  fold_res (fun j value =>
      n <- getN s_fl i dim j Mask ;;
      match n with
      | None => Ok value
      | Some naddr =>
        f <- rd s_fl naddr ;;
        if flg_eqb f Frozen then
          d <- rd s_ds naddr ;;
          Ok (if Rlt_dec (Rabs d) (Rabs value) then d else value)
        else Ok value
      end) dirs maxDouble.

(** distance_marcher.cpp 5-28 *)
Definition updatePointOrderOne (s_fl : buf flg) (s_ds : buf R) (i : nat) : res R :=
  '(a, b, c) <- fold_res (fun dim '(a, b, c) =>
      value <- best s_fl s_ds i dim ;;
      Ok (if Rlt_dec value maxDouble
          then (a + idx2 dim, b - idx2 dim * 2 * value, c + idx2 dim * value ^ 2)%R
          else (a, b, c))) dims (0%R, 0%R, 0%R) ;;
  Ok (solveQuadratic i a b c).

(** distance_marcher.cpp 93-98 *)
Definition initZero (s : buf flg * buf R) : res (buf flg * buf R) :=
  for_loop size_ 0 (fun i '(f, d) =>
    fi <- rd f i ;;
    if (negb (flg_eqb fi Mask) && Reqb (phi i) 0)%bool then
      f' <- wr f i Frozen ;; d' <- wr d i 0%R ;; Ok (f', d')
    else Ok (f, d)) s.

(** distance_marcher.cpp 108-121: [ldistance[dim]] and [borders] for one dimension *)
Definition cross (s_fl : buf flg) (i dim : nat) (borders : bool) : res (bool * R) :=
  fold_res (fun j '(bo, ld) =>
      n <- getN s_fl i dim j Mask ;;
      match n with
      | None => Ok (bo, ld)
      | Some naddr =>
        if Rlt_dec (phi i * phi naddr) 0 then
          let d := (nth dim dX 0 * phi i / (phi i - phi naddr))%R in
          Ok (true, if (Reqb ld 0 || Rltb d ld)%bool then d else ld)
        else Ok (bo, ld)
      end) dirs (borders, 0%R).

(** distance_marcher.cpp 106-122 *)
Definition crossAll (s_fl : buf flg) (i : nat) : res (bool * list R) :=
  fold_res (fun dim '(bo, lds) =>
      '(bo', ld) <- cross s_fl i dim bo ;; Ok (bo', lds ++ [ld])) dims (false, []).

(** distance_marcher.cpp 126-131 *)
Definition minDist (lds : list R) : R :=
  fold_left (fun m ld => let dist := Rabs ld in
     if Rlt_dec 0 dist then (if Rlt_dec dist m then dist else m) else m) lds maxDouble.

(** distance_marcher.cpp 103-150 *)
Definition initCross (s : buf flg * buf R) : res (buf flg * buf R) :=
  for_loop size_ 0 (fun i '(f, d) =>
    fi <- rd f i ;;
    if flg_eqb fi Far then
      '(bo, lds) <- crossAll f i ;;
      if (bo : bool) then
        d' <- wr d i (if Rlt_dec (phi i) 0 then (- minDist lds)%R else minDist lds) ;;
        f' <- wr f i Frozen ;;
        Ok (f', d')
      else Ok (f, d)
    else Ok (f, d)) s.

(** base_marcher.cpp 46-49 and 99-102: counting loops *)
Definition countFlag (g : flg) (f : buf flg) : res nat :=
  for_loop size_ 0 (fun i n => fi <- rd f i ;; Ok (if flg_eqb fi g then S n else n)) 0.

(** base_marcher.cpp 66-85 for one point and one neighbour *)
Definition narrowOne (i : nat) (dim : nat) (j : Z) (s : st) : res st :=
  n <- getN (fl s) i dim j Mask ;;
  match n with
  | None => Ok s
  | Some naddr =>
    fn <- rd (fl s) naddr ;;
    fi <- rd (fl s) i ;;
    if (flg_eqb fn Frozen && flg_eqb fi Far)%bool then
      f' <- wr (fl s) i Narrow ;;
      d <- updatePointOrderOne f' (ds s) i ;;
      ds' <- wr (ds s) i d ;;
      '(h', k) <- push Rltb (pq s) i (Rabs d) ;;
      q' <- wr (hq s) i k ;;
      Ok (mkst f' ds' q' h')
    else Ok s
  end.

(** base_marcher.cpp 62-87 *)
Definition initNarrow (s0 : st) : res st :=
  for_loop size_ 0 (fun i s =>
    fi <- rd (fl s) i ;;
    if flg_eqb fi Far then
      fold_res (fun dim s => fold_res (fun j s => narrowOne i dim j s) dirs s) dims s
    else Ok s) s0.

(** base_marcher.cpp 115-122: pop one point and freeze it *)
Definition popFreeze (s : st) : res (st * nat * R) :=
  '(h', (addr, value)) <- pop Rltb (pq s) ;;
  f' <- wr (fl s) addr Frozen ;;
  Ok (mkst f' (ds s) (hq s) h', addr, value).

(** base_marcher.cpp 124-135: pop every further point with the same value *)
Fixpoint popEqual (fuel : nat) (value : R) (toFreeze : list nat) (s : st) : res (st * list nat) :=
  if empty (pq s) then Ok (s, toFreeze) else
  v <- peek (pq s) ;;
  if Reqb value v then
    match fuel with
    | O => NoFuel
    | S fuel' => '(s', a, _) <- popFreeze s ;; popEqual fuel' value (toFreeze ++ [a]) s'
    end
  else Ok (s, toFreeze).

(** base_marcher.cpp 143-167: update one neighbour of a newly frozen point *)
Definition touch (addr dim : nat) (j : Z) (s : st) : res st :=
  n <- getN (fl s) addr dim j Frozen ;;
  match n with
  | None => Ok s
  | Some naddr =>
    f <- rd (fl s) naddr ;;
    if flg_eqb f Frozen then Ok s
    else if flg_eqb f Narrow then
      d <- updatePointOrderOne (fl s) (ds s) naddr ;;
      if Reqb d 0 then Ok s else
      k <- rd (hq s) naddr ;;
      h' <- set Rltb (pq s) k (Rabs d) ;;
      ds' <- wr (ds s) naddr d ;;
      Ok (mkst (fl s) ds' (hq s) h')
    else if flg_eqb f Far then
      d <- updatePointOrderOne (fl s) (ds s) naddr ;;
      if Reqb d 0 then Ok s else
      ds' <- wr (ds s) naddr d ;;
      f' <- wr (fl s) naddr Narrow ;;
      '(h', k) <- push Rltb (pq s) naddr (Rabs d) ;;
      q' <- wr (hq s) naddr k ;;
      Ok (mkst f' ds' q' h')
    else Ok s
  end.

(** base_marcher.cpp 137-187 *)
Definition touchAll (toFreeze : list nat) (s : st) : res st :=
  fold_res (fun a s => fold_res (fun dim s => fold_res (fun j s => touch a dim j s) dirs s) dims s) toFreeze s.

(** base_marcher.cpp 110-188 main loop *)
Fixpoint mainLoop (fuel : nat) (s : st) : res st :=
  if empty (pq s) then Ok s else
  match fuel with
  | O => NoFuel
  | S fuel' =>
    '(s1, addr, value) <- popFreeze s ;;
    '(s2, toFreeze) <- popEqual size_ value [addr] s1 ;;
    s3 <- touchAll toFreeze s2 ;;
    mainLoop fuel' s3
  end.

(** base_marcher.cpp 98-198; the error code is returned beside the state *)
Definition solve (s : st) : res (st * nat) :=
  frozenCount <- countFlag Frozen (fl s) ;;
  if Nat.eqb frozenCount 0 then Ok (s, 2) else
  s' <- mainLoop size_ s ;;
  d' <- for_loop size_ 0 (fun i d =>
          f <- rd (fl s') i ;; if flg_eqb f Frozen then Ok d else wr d i maxDouble) (ds s') ;;
  Ok (mkst (fl s') d' (hq s') (pq s'), 0).

(** base_marcher.cpp 43-55; [cleanUp] is empty *)
Definition march (f0 : buf flg) (d0 : buf R) : res (st * nat) :=
  '(f1, d1) <- initZero (f0, d0) ;;
  '(f2, d2) <- initCross (f1, d1) ;;
  maxHeap <- countFlag Far f2 ;;
  s1 <- initNarrow (mkst f2 d2 (balloc size_) (heap_new maxHeap)) ;;
  solve s1.

(** pfmm.cpp 4-26: all flags Far, all distances 0, the error code is dropped.
    The fixed-size member arrays (base_marcher.h 3, 54-55, 101) hold at most 12 dimensions. *)
Definition distance : res (buf R) :=
  if Nat.ltb 12 dim_ then UB "shape_ overflow" else
  '(s, _) <- march (mkbuf size_ (fun _ => Some Far)) (mkbuf size_ (fun _ => Some 0%R)) ;;
  Ok (ds s).

End Marcher.
