(** Model of /repo/code/cpp/src/solvers/steppers.cpp, and of the cell loops of dg1.cpp, dg2.cpp (predictor1, predictor2),
    split/homogeneous.cpp (midstepper) and split/ode.cpp (ode_launcher).

    A cell of [u], [ub], [wh] is a [num] (a state vector, or NaN). What the predictor, the half step and the relaxation
    step do to one cell are parameters: they depend on nothing but the values of that cell. Sizes are in cells (u, ub,
    mask), rows (wh) and blocks of N^ndim rows (qh, rec). *)
From Coq Require Import Reals.
From Verif Require Import Base Options WenoModel FvModel GridModel.
Import List ListNotations.
Open Scope nat_scope.

(** steppers.cpp 36-37, 79-80; integer division, nthreads >= 1 *)
Definition slab_start (nx nthreads t : nat) : nat := t * nx / nthreads.

Section Stepper.
Variable N : nat.
Variables (SIG : nat -> nat -> R) (LAMS LAMC EPS : R) (inv : stencil -> (nat -> R) -> nat -> R).
Variable prim : option ((num -> num) * (num -> num)).   (* PRIM_RECONSTRUCT *)
Variable nocorners : bool.                              (* NO_CORNERS *)
Variable blk : Type.
(** increments of the finite volume update with (TIME, SOURCES) = (true, true) for ADER, (false, false) for split *)
Variable center : nat -> bool -> nat -> blk -> res (list (num -> num)).
Variable face : nat -> bool -> nat -> nat -> blk -> blk -> res ((num -> num) * (num -> num)).

(** the predictor in one cell (dg1.cpp 71-115, dg2.cpp 126-184): the N time blocks, or nothing when the cell is left
    unwritten *)
Variable Phi : nat -> list num -> res (option (nat -> blk)).
(** a block of rows of wh as the finite volume update reads it, and what midstepper makes of it *)
Variable view : list num -> blk.
Variable mid : nat -> list num -> res blk.
(** one cell of ode_launcher (split/ode.cpp 8-9) *)
Variable ode : num -> num.

Notation weno := (weno_launcher N SIG LAMS LAMC EPS inv prim nocorners).
Notation upd_list := (list (update num)).

(** a view v.segment(off, len) *)
Definition segment {A} (b : buf A) (off len : nat) : res (buf A) :=
  if Nat.leb (off + len) (blen b) then Ok (mkbuf len (fun a => bdat b (off + a))) else UB "segment out of range".

(** dg1.cpp 60-117, dg2.cpp 113-187: the loop over the cells. R rows of wh per cell. *)
Definition predictor (ndim R : nat) (qh : buf blk) (wh : buf num) (mask : buf bool) : res (buf blk) :=
  for_loop (blen mask) 0 (fun i qh =>
    m <- rd mask i ;;
    if (m : bool) then
      rows <- gather (rd wh) R (i * R) ;;
      r <- Phi ndim rows ;;
      match r with
      | Some f => for_loop N 0 (fun t qh => wr qh (i * N + t) (f t)) qh
      | None => Ok qh
      end
    else Ok qh) qh.

(** homogeneous.cpp 5-73: wh is modified in place where the mask is set; here, the blocks read by fv_launcher *)
Definition midstepper (HALF : bool) (ndim R : nat) (rec : buf blk) (wh : buf num) (mask : buf bool) : res (buf blk) :=
  for_loop (blen mask) 0 (fun i rec =>
    m <- rd mask i ;;
    rows <- gather (rd wh) R (i * R) ;;
    b <- (if ((m : bool) && HALF)%bool then mid ndim rows else Ok (view rows)) ;;
    wr rec i b) rec.

(** steppers.cpp 11-23 up to the updates of u; u enters only there (FvModel.v) *)
Definition ader_updates (ub : buf num) (mask : buf bool) (nX : list nat) : res upd_list :=
  let ndim := length nX in let R := N ^ ndim in
  wh <- weno (balloc (extended_dimensions nX 1 * R)) ub nX ;;
  qh <- predictor ndim R (balloc (extended_dimensions nX 1 * N)) wh mask ;;
  fv_updates num blk N (center ndim true) (face ndim true) true qh mask nX.
Definition ader_stepper (u ub : buf num) (mask : buf bool) (nX : list nat) : res (buf num) :=
  l <- ader_updates ub mask nX ;; fold_res do_update l u.

(** steppers.cpp 50-66. ode_launcher runs over every cell of u, in order, before and after the update; ub is mapped in
    place (the caller's array in the serial version, a copy of it in the parallel one; nothing reads it afterwards) *)
Definition split_updates (HALF : bool) (ulen : nat) (ub : buf num) (mask : buf bool) (nX : list nat) : res upd_list :=
  let ndim := length nX in let R := N ^ ndim in
  let relax := map (fun c => (c, ode)) (seq 0 ulen) in
  wh <- weno (balloc (extended_dimensions nX 1 * R)) (bmap ode ub) nX ;;
  rec <- midstepper HALF ndim R (balloc (extended_dimensions nX 1)) wh mask ;;
  l <- fv_updates num blk N (center ndim false) (face ndim false) false rec mask nX ;;
  Ok (relax ++ l ++ relax).
Definition split_stepper (HALF : bool) (u ub : buf num) (mask : buf bool) (nX : list nat) : res (buf num) :=
  l <- split_updates HALF (blen u) ub mask nX ;; fold_res do_update l u.

(** steppers.cpp 25-48 and 68-94: what thread t of n does to u. [ser ulen ub mask nX] is the serial stepper's list of
    updates; the addresses are relative to the thread's segment of u, and must lie in it. *)
Definition thread_updates (ser : nat -> buf num -> buf bool -> list nat -> res upd_list)
    (ulen : nat) (ub : buf num) (mask : buf bool) (nX : list nat) (n t : nat) : res upd_list :=
  match nX with
  | [] => UB "nX is empty"
  | nx :: rest =>
    if Nat.eqb nx 0 then UB "division by zero" else
    let uRow := ulen / nx in let ubRow := blen ub / (nx + 2 * N) in let maskRow := blen mask / (nx + 2) in
    let start := slab_start nx n t in let finish := slab_start nx n (t + 1) in
    if Nat.ltb ulen (finish * uRow) then UB "segment out of range" else
    ubs <- segment ub (start * ubRow) ((finish + 2 * N - start) * ubRow) ;;
    ms <- segment mask (start * maskRow) ((finish + 2 - start) * maskRow) ;;
    l <- ser ((finish - start) * uRow) ubs ms ((finish - start) :: rest) ;;
    if forallb (fun p => Nat.ltb (fst p) ((finish - start) * uRow)) l
    then Ok (map (fun p => (start * uRow + fst p, snd p)) l) else UB "out of range of the segment"
  end.
Definition ader_thread := thread_updates (fun _ => ader_updates).
Definition split_thread (HALF : bool) := thread_updates (split_updates HALF).
End Stepper.

(** ** Threads sharing [u]. A thread is the list of its remaining updates and, in the middle of an update
    [u(a) = e(u(a))], the value it has read. Reads and writes of a cell are the atomic steps; any thread may move next. *)
Section Threads.
Variable T : Type.
Definition tstate := (list (update T) * option T)%type.
Definition config := (list tstate * buf T)%type.

Definition tstep (s : tstate) (u : buf T) : option (res (tstate * buf T)) :=
  match s with
  | ([], _) => None
  | ((a, e) :: l, None) => Some (x <- rd u a ;; Ok (((a, e) :: l, Some x), u))
  | ((a, e) :: l, Some x) => Some (u' <- wr u a (e x) ;; Ok ((l, None), u'))
  end.

(** a schedule is a list of thread numbers; choosing a finished thread does nothing *)
Definition cstep (i : nat) (c : config) : res config :=
  match nth_error (fst c) i with
  | None => Ok c
  | Some s => match tstep s (snd c) with
              | None => Ok c
              | Some r => ' (s', u') <- r ;; Ok (firstn i (fst c) ++ s' :: skipn (S i) (fst c), u')
              end
  end.
Definition crun (sched : list nat) (c : config) : res config := fold_res cstep sched c.
Definition finished (c : config) : Prop := forall s, In s (fst c) -> fst s = [].
Definition start_config (ops : list (list (update T))) (u : buf T) : config := (map (fun l => (l, None)) ops, u).
End Threads.
(** the parallel region (steppers.cpp 31-47, 74-93): [thr t] is what thread t does; the lists do not depend on u *)
Fixpoint gather_ops {A} (thr : nat -> res A) (n t : nat) : res (list A) :=
  match n with O => Ok [] | S m => l <- thr t ;; ls <- gather_ops thr m (S t) ;; Ok (l :: ls) end.
Definition para {T} (thr : nat -> res (list (update T))) (n : nat) (sched : list nat) (u : buf T) : res (config T) :=
  ops <- gather_ops thr n 0 ;; crun T sched (start_config T ops u).

Arguments tstep {T}. Arguments cstep {T}. Arguments crun {T}. Arguments finished {T}. Arguments start_config {T}.
