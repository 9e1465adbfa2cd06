(** Model of the indexed binary heap of skfmm:
    /repo/code/cpp/include/skfmm/heap.cpp and heap.h.
    Definitions only; no proofs. *)
From Verif Require Import Base.

Section Heap.
(** [double] with its [<]; proofs assume a strict total order, i.e. no NaN. *)
Variable D : Type.
Variable ltb : D -> D -> bool.

(** heap.h 56-64 (class fields). [selfTest_] is false in [distance]
    (pfmm.cpp 14), [test()] is modelled separately as [htest]. *)
Record heap := mkheap {
  hmax : nat;              (* maxLength_   *)
  llen : nat;              (* listLength_  *)
  hlen : nat;              (* heapLength_  *)
  dist : buf D;            (* distance_    *)
  hp   : buf nat;          (* heap_        *)
  addr : buf nat;          (* address_     *)
  bp   : buf nat           (* backPointer_ *)
}.

(** heap.cpp 34-44 *)
Definition heap_new (maxLength : nat) : heap :=
  mkheap maxLength 0 0 (balloc maxLength) (balloc maxLength) (balloc maxLength) (balloc maxLength).

(** heap.cpp 98-110: the [while (pos > startPos)] loop of [_siftDown].
    Fuel: [pos] strictly decreases; [pos] itself is enough fuel. *)
Fixpoint siftDown_loop (fuel : nat) (d : buf D) (startPos newItem pos : nat) (h b : buf nat)
  : res (nat * buf nat * buf nat) :=
  if Nat.ltb startPos pos then
    match fuel with
    | O => NoFuel
    | S fuel' =>
      let parentPos := (pos - 1) / 2 in            (* (pos-1)>>1 *)
      parent <- rd h parentPos ;;
      dn <- rd d newItem ;;
      dp <- rd d parent ;;
      if ltb dn dp then
        h' <- wr h pos parent ;;
        b' <- wr b parent pos ;;
        siftDown_loop fuel' d startPos newItem parentPos h' b'
      else Ok (pos, h, b)
    end
  else Ok (pos, h, b).

(** heap.cpp 92-113 *)
Definition siftDown (s : heap) (startPos pos : nat) : res heap :=
  newItem <- rd (hp s) pos ;;
  '(pos', h, b) <- siftDown_loop pos (dist s) startPos newItem pos (hp s) (bp s) ;;
  h' <- wr h pos' newItem ;;
  b' <- wr b newItem pos' ;;
  Ok (mkheap (hmax s) (llen s) (hlen s) (dist s) h' (addr s) b').

(** heap.cpp 122-135: the loop of [_siftUp]; [childPos = 2*pos+1] on entry of each
    iteration. Fuel: [pos] strictly increases below [endPos]. *)
Fixpoint siftUp_loop (fuel : nat) (d : buf D) (endPos pos : nat) (h b : buf nat)
  : res (nat * buf nat * buf nat) :=
  let childPos := 2 * pos + 1 in
  if Nat.ltb childPos endPos then
    match fuel with
    | O => NoFuel
    | S fuel' =>
      let rightPos := childPos + 1 in
      childPos' <-
        (if Nat.ltb rightPos endPos then
           hc <- rd h childPos ;; dc <- rd d hc ;;
           hr <- rd h rightPos ;; dr <- rd d hr ;;
           Ok (if negb (ltb dc dr) then rightPos else childPos)
         else Ok childPos) ;;
      hc <- rd h childPos' ;;
      h' <- wr h pos hc ;;
      hc' <- rd h' childPos' ;;                    (* heap_[childPos] re-read, line 132 *)
      b' <- wr b hc' pos ;;
      siftUp_loop fuel' d endPos childPos' h' b'
    end
  else Ok (pos, h, b).

(** heap.cpp 115-138 *)
Definition siftUp (s : heap) (pos : nat) : res heap :=
  let endPos := hlen s in
  let startPos := pos in
  newItem <- rd (hp s) pos ;;
  '(pos', h, b) <- siftUp_loop endPos (dist s) endPos pos (hp s) (bp s) ;;
  h' <- wr h pos' newItem ;;
  siftDown (mkheap (hmax s) (llen s) (hlen s) (dist s) h' (addr s) b) startPos pos'.

(** heap.cpp 54-67; returns the handle *)
Definition push (s : heap) (address : nat) (value : D) : res (heap * nat) :=
  if Nat.eqb (hlen s) (hmax s) then Throw "heap push error: heap full" else
  h <- wr (hp s) (hlen s) (llen s) ;;
  a <- wr (addr s) (llen s) address ;;
  d <- wr (dist s) (llen s) value ;;
  b <- wr (bp s) (llen s) (hlen s) ;;
  let s1 := mkheap (hmax s) (S (llen s)) (S (hlen s)) d h a b in
  s2 <- siftDown s1 0 (hlen s1 - 1) ;;
  Ok (s2, llen s2 - 1).

(** heap.cpp 69-75 *)
Definition peek (s : heap) : res D :=
  if Nat.eqb (hlen s) 0 then Throw "heap peek error: empty heap" else
  loc <- rd (hp s) 0 ;; rd (dist s) loc.

(** heap.cpp 77-90; returns ( *address, *value ) *)
Definition pop (s : heap) : res (heap * (nat * D)) :=
  if Nat.eqb (hlen s) 0 then Throw "heap pop error: empty heap" else
  loc <- rd (hp s) 0 ;;
  value <- rd (dist s) loc ;;
  h0 <- rd (hp s) 0 ;;
  address <- rd (addr s) h0 ;;
  last <- rd (hp s) (hlen s - 1) ;;
  h <- wr (hp s) 0 last ;;
  h0' <- rd h 0 ;;
  b <- wr (bp s) h0' 0 ;;
  let s1 := mkheap (hmax s) (llen s) (hlen s - 1) (dist s) h (addr s) b in
  s2 <- siftUp s1 0 ;;
  Ok (s2, (address, value)).

(** heap.cpp 141-157 *)
Definition set (s : heap) (index : nat) (newDistance : D) : res heap :=
  oldDistance <- rd (dist s) index ;;
  pos <- rd (bp s) index ;;
  d <- wr (dist s) index newDistance ;;
  let s1 := mkheap (hmax s) (llen s) (hlen s) d (hp s) (addr s) (bp s) in
  s2 <- (if ltb oldDistance newDistance then siftUp s1 pos else Ok s1) ;;
  hpos <- rd (hp s2) pos ;;
  dpos <- rd (dist s2) hpos ;;
  if ltb dpos newDistance || ltb newDistance dpos      (* distance_[heap_[pos]] != newDistance *)
  then Ok s2
  else siftDown s2 0 pos.

(** heap.cpp 159-163 *)
Definition empty (s : heap) : bool := Nat.eqb (hlen s) 0.

(** heap.cpp 172-183: inner loop body for one child position *)
Definition htest_child (s : heap) (i c : nat) : res unit :=
  if Nat.ltb c (hlen s - 1) then
    hi <- rd (hp s) i ;; dp <- rd (dist s) hi ;;
    hc <- rd (hp s) c ;; dc <- rd (dist s) hc ;;
    if ltb dc dp then Throw "heap invariant violation" else Ok tt   (* !(dp<=dc) *)
  else Ok tt.

(** heap.cpp 165-193 *)
Definition htest (s : heap) : res unit :=
  _ <- for_loop (hlen s) 0
        (fun i _ => _ <- htest_child s i (2*i+1) ;; htest_child s i (2*i+1+1)) tt ;;
  for_loop (hlen s) 0
    (fun i _ => hi <- rd (hp s) i ;; bi <- rd (bp s) hi ;;
       if Nat.eqb bi i then Ok tt else Throw "heap backpointer inconsistancy") tt.

(** The public calls of heap.h 38-44 as operations, and their visible results. *)
Inductive op := OPush (a : nat) (d : D) | OSet (h : nat) (d : D) | OPop.
Inductive out := RHandle (h : nat) | RUnit | RPopped (a : nat) (d : D) | RThrown.

(** One call; a C++ exception is a visible result that leaves the object as it was
    (all throws precede any write, heap.cpp 56-57, 80-81). *)
Definition hstep (s : heap) (o : op) : res (heap * out) :=
  match o with
  | OPush a d => match push s a d with
                 | Ok (s', h) => Ok (s', RHandle h)
                 | Throw _ => Ok (s, RThrown)
                 | UB w => UB w | NoFuel => NoFuel end
  | OSet h d => s' <- set s h d ;; Ok (s', RUnit)
  | OPop => match pop s with
            | Ok (s', (a, d)) => Ok (s', RPopped a d)
            | Throw _ => Ok (s, RThrown)
            | UB w => UB w | NoFuel => NoFuel end
  end.

Fixpoint hexec (s : heap) (ops : list op) : res (heap * list out) :=
  match ops with
  | [] => Ok (s, [])
  | o :: os => '(s1, r) <- hstep s o ;; '(s2, rs) <- hexec s1 os ;; Ok (s2, r :: rs)
  end.

End Heap.

Arguments mkheap {D}. Arguments hmax {D}. Arguments llen {D}. Arguments hlen {D}.
Arguments dist {D}. Arguments hp {D}. Arguments addr {D}. Arguments bp {D}.
Arguments heap_new {D}. Arguments OPush {D}. Arguments OSet {D}. Arguments OPop {D}.
Arguments RHandle {D}. Arguments RUnit {D}. Arguments RPopped {D}. Arguments RThrown {D}.
Arguments empty {D}.
Arguments siftDown {D}. Arguments siftUp {D}. Arguments siftDown_loop {D}. Arguments siftUp_loop {D}.
Arguments push {D}. Arguments peek {D} _. Arguments pop {D}. Arguments set {D}.
Arguments htest {D}. Arguments htest_child {D}. Arguments hstep {D}. Arguments hexec {D}.
