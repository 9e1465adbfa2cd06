(** Properties C01-C04 (priority queue). Only statements, witnesses and [Print Assumptions]. *)
From Coq Require Import Sorting.Permutation.
From Verif Require Import Base HeapModel HeapSpec HeapProof HeapProof2.

(** A strict total order on distances: the [double] [<] without NaN. *)
Record strict_total {D} (ltb : D -> D -> bool) : Prop := {
  st_irrefl : forall a, ltb a a = false;
  st_trans : forall a b c, ltb a b = true -> ltb b c = true -> ltb a c = true;
  st_total : forall a b, ltb a b = false -> ltb b a = false -> a = b }.

(** C01, C02. Every history of calls, up to its first call that breaks the contract [allowed], runs without
    undefined behaviour and every visible result is one the bag allows: in particular [pop] returns a live entry
    of minimal distance and removes exactly it, [set] changes only the entry of its handle, [push] returns a
    fresh handle. Popping everything afterwards returns exactly the live entries with their latest distances,
    in non-decreasing order. *)
Theorem heap_history_refines_bag :
  forall (D : Type) (ltb : D -> D -> bool) (d0 : D), strict_total ltb ->
  forall (cap : nat) (ops : list (op D)),
  exists k outs s' m',
    hexec ltb (heap_new cap) (firstn k ops) = Ok (s', outs) /\
    bag_run ltb cap bag_empty (firstn k ops) outs m' /\
    (k = List.length ops \/ exists o, nth_error ops k = Some o /\ ~ allowed cap m' o) /\
    exists s'' l,
      hexec ltb s' (repeat OPop (size m')) = Ok (s'', map (fun e => RPopped (fst e) (snd e)) l) /\
      Permutation (entries m') l /\ nondecreasing ltb l /\ empty s'' = true.
Proof.
  exact (fun D ltb d0 st => refines_drain D ltb d0 (st_irrefl _ st) (st_trans _ st) (st_total _ st)).
Qed.
Print Assumptions heap_history_refines_bag.

Lemma nat_strict_total : strict_total Nat.ltb.
Proof. split; intros *; rewrite ?Nat.ltb_lt, ?Nat.ltb_ge; try lia; apply Nat.ltb_irrefl. Qed.

(** witness: a history with pushes, a decrease, an increase and pops that is fully inside the contract *)
Example heap_history_example :
  exists s, hexec Nat.ltb (heap_new 4)
    [OPush 10 7; OPush 11 3; OPush 12 5; OSet 0 1; OSet 1 6; OPop; OPush 13 2; OPop; OPop; OPop; OPop]
  = Ok (s, [RHandle 0; RHandle 1; RHandle 2; RUnit; RUnit; RPopped 10 1; RHandle 3;
            RPopped 13 2; RPopped 12 5; RPopped 11 6; RThrown]).
Proof. eexists. vm_compute. reflexivity. Qed.

(** C03, positive half, with the exact boundary: on every history inside the contract nothing overruns, the self
    test passes, and the next [push] is undefined behaviour exactly when [cap] entries have been pushed over the
    queue's life although the queue is not full. *)
Theorem heap_push_safe_iff_partial :
  forall (D : Type) (ltb : D -> D -> bool) (d0 : D), strict_total ltb ->
  forall (cap : nat) (ops : list (op D)) (a : nat) (d : D),
  exists k outs s' m',
    hexec ltb (heap_new cap) (firstn k ops) = Ok (s', outs) /\
    bag_run ltb cap bag_empty (firstn k ops) outs m' /\
    (k = List.length ops \/ exists o, nth_error ops k = Some o /\ ~ allowed cap m' o) /\
    (is_ub (push ltb s' a d) <-> next m' >= cap /\ size m' <> cap) /\
    htest ltb s' = Ok tt.
Proof.
  exact (fun D ltb d0 st => reach_push_overflow D ltb d0 (st_irrefl _ st) (st_trans _ st) (st_total _ st)).
Qed.
Print Assumptions heap_push_safe_iff_partial.

(** C03 is false at full strength: a heap of capacity 1 is overrun by push, pop, push, although it is empty
    when the second push arrives (no exception is thrown). *)
Theorem heap_capacity_refuted :
  exists (ops : list (op nat)) s outs,
    hexec Nat.ltb (heap_new 1) ops = Ok (s, outs) /\ empty s = true /\ is_ub (push Nat.ltb s 8 5).
Proof.
  exists [OPush 7 4; OPop]. eexists _, _. split; [vm_compute; reflexivity|]. split; [reflexivity|].
  eexists. vm_compute. reflexivity.
Qed.
Print Assumptions heap_capacity_refuted.

(** C04: exactly what the self test decides. It compares each entry but the last with its parent. *)
Theorem heap_selftest_partial :
  forall (D : Type) (ltb : D -> D -> bool) (s : heap D) (H : nat -> nat) (K : nat -> D) (B : nat -> nat),
  readable D s H K B ->
  (htest ltb s = Ok tt <->
   (forall c, 0 < c < hlen s - 1 -> ltb (K (H c)) (K (H ((c - 1) / 2))) = false) /\
   (forall i, i < hlen s -> B (H i) = i)).
Proof. exact htest_exact. Qed.
Print Assumptions heap_selftest_partial.

(** C04 is false at full strength: a two-entry heap whose root is larger than its child passes the test. *)
Definition bad_heap : heap nat :=
  mkheap 2 2 2 (mkbuf 2 (fun i => Some (match i with 0 => 5 | _ => 3 end)))
         (mkbuf 2 (fun i => Some i)) (mkbuf 2 (fun i => Some i)) (mkbuf 2 (fun i => Some i)).
Theorem heap_selftest_refuted :
  exists (s : heap nat) (H : nat -> nat) (K : nat -> nat) (B : nat -> nat),
    readable nat s H K B /\ htest Nat.ltb s = Ok tt /\
    exists c, 0 < c < hlen s /\ Nat.ltb (K (H c)) (K (H ((c - 1) / 2))) = true.
Proof.
  exists bad_heap, (fun i => i), (fun i => match i with 0 => 5 | _ => 3 end), (fun i => i).
  split; [|split].
  - split; cbn; [lia|]. intros i Hi. repeat split; auto.
  - vm_compute. reflexivity.
  - exists 1. cbn. auto.
Qed.
Print Assumptions heap_selftest_refuted.
