(** Specification of the priority queue, independent of the array implementation:
    a bag of live entries named by handles. *)
From Verif Require Import Base HeapModel.

Section Spec.
Variable D : Type.
Variable ltb : D -> D -> bool.

(** [next]: number of successful pushes so far (the next handle);
    [live h]: address and current distance of the entry named [h], if it is in the queue. *)
Record bag := mkbag { next : nat; live : nat -> option (nat * D) }.

Definition bag_empty : bag := mkbag 0 (fun _ => None).

(** number of live entries *)
Definition size (m : bag) : nat :=
  List.length (filter (fun h => match live m h with Some _ => true | None => false end)
                      (seq 0 (next m))).

(** What each call may return and how it changes the bag. *)
Inductive bag_step (cap : nat) : bag -> op D -> out D -> bag -> Prop :=
| step_push m a d : size m < cap ->
    bag_step cap m (OPush a d) (RHandle (next m)) (mkbag (S (next m)) (upd (live m) (next m) (Some (a, d))))
| step_push_full m a d : size m = cap ->
    bag_step cap m (OPush a d) RThrown m
| step_set m h a d0 d : live m h = Some (a, d0) ->
    bag_step cap m (OSet h d) RUnit (mkbag (next m) (upd (live m) h (Some (a, d))))
| step_pop m h a d : live m h = Some (a, d) ->
    (forall h' a' d', live m h' = Some (a', d') -> ltb d' d = false) ->
    bag_step cap m OPop (RPopped a d) (mkbag (next m) (upd (live m) h None))
| step_pop_empty m : size m = 0 ->
    bag_step cap m OPop RThrown m.

Inductive bag_run (cap : nat) : bag -> list (op D) -> list (out D) -> bag -> Prop :=
| run_nil m : bag_run cap m [] [] m
| run_cons m m1 m2 o os r rs :
    bag_step cap m o r m1 -> bag_run cap m1 os rs m2 -> bag_run cap m (o :: os) (r :: rs) m2.

(** Contract of each call: [set] needs a live handle; fewer than [cap] entries may be pushed
    over the whole life of the queue unless it is completely full (in which case it throws). *)
Definition allowed (cap : nat) (m : bag) (o : op D) : Prop :=
  match o with
  | OPush _ _ => next m < cap \/ size m = cap
  | OSet h _ => live m h <> None
  | OPop => True
  end.
End Spec.
Arguments mkbag {D}. Arguments next {D}. Arguments live {D}. Arguments bag_empty {D}. Arguments size {D}.
Arguments bag_step {D}. Arguments bag_run {D}. Arguments allowed {D}.

(** ** Draining: the live entries as a list *)
From Coq Require Import Sorting.Permutation.
Section Drain.
Variable D : Type.
Variable ltb : D -> D -> bool.

(** live entries in handle order *)
Definition entries (m : bag D) : list (nat * D) :=
  flat_map (fun h => match live m h with Some e => [e] | None => [] end) (seq 0 (next m)).

(** distances never decrease along the list *)
Inductive nondecreasing : list (nat * D) -> Prop :=
| nd_nil : nondecreasing []
| nd_cons e l : (forall e', In e' l -> ltb (snd e') (snd e) = false) -> nondecreasing l ->
    nondecreasing (e :: l).
End Drain.
Arguments entries {D}. Arguments nondecreasing {D}.
