(** Model of /repo/code/cpp/src/solvers/fv/fv.cpp: the loops of the finite volume update.
    [u], [rec] and [mask] are three different arrays and the increments do not depend on [u], so a call is modelled as
    the list of updates [u.segment<V>(a * V) += ..] it performs, in program order, followed by performing them. The
    index arithmetic is in units of cells ([u], [mask]) and of blocks of N (1-D) or N*N (2-D) rows ([rec]). Nothing is
    assumed about the arithmetic: [T] is the type of a cell, [center] and [face] give the increments
    (FvBody.v instantiates them). *)
From Verif Require Import Base.
Import List ListNotations.
Open Scope nat_scope.

Section Loops.
Variables T blk : Type.
Definition update := (nat * (T -> T))%type.
Variable N : nat.
(** [center t q] : the increments of centers*_inner for time node t and block q *)
Variable center : nat -> blk -> res (list (T -> T)).
(** [face d t ql qr] : the increments of interfs*_inner on the two sides of a face normal to d *)
Variable face : nat -> nat -> blk -> blk -> res ((T -> T) * (T -> T)).

(** a loop that collects the updates of its iterations *)
Fixpoint for_ops (n lo : nat) (f : nat -> res (list update)) : res (list update) :=
  match n with O => Ok [] | S m => a <- f lo ;; b <- for_ops m (S lo) f ;; Ok (a ++ b) end.

(** fv.cpp 7, 9 *)
Definition ind1 (i t nt : nat) := i * nt + t.
Definition ind2 (i j t ny nt : nat) := (i * ny + j) * nt + t.

(** fv.cpp 11-44 *)
Definition centers1_inner (rec : buf blk) (mask : buf bool) (nx nt t : nat) : res (list update) :=
  for_ops nx 0 (fun i =>
    m <- rd mask (i + 1) ;;
    if (m : bool) then q <- rd rec (ind1 (i + 1) t nt) ;; l <- center t q ;; Ok (map (fun e => (i, e)) l) else Ok []).

(** fv.cpp 46-54, 151-160: over the time nodes, or once *)
Definition nt_of (TIME : bool) : nat := if TIME then N else 1.
Definition centers1 (TIME : bool) rec mask nx : res (list update) :=
  for_ops (nt_of TIME) 0 (fun t => centers1_inner rec mask nx (nt_of TIME) t).

(** fv.cpp 56-97; [mask] is indexed by ind(i, j, ny + 2) of functions/vectors *)
Definition centers2_inner (rec : buf blk) (mask : buf bool) (nx ny nt t : nat) : res (list update) :=
  for_ops nx 0 (fun i => for_ops ny 0 (fun j =>
    m <- rd mask ((i + 1) * (ny + 2) + (j + 1)) ;;
    if (m : bool) then q <- rd rec (ind2 (i + 1) (j + 1) t (ny + 2) nt) ;; l <- center t q ;; Ok (map (fun e => (i * ny + j, e)) l) else Ok [])).
(** fv.cpp 99-109 *)
Definition centers2 (TIME : bool) rec mask nx ny : res (list update) :=
  for_ops (nt_of TIME) 0 (fun t => centers2_inner rec mask nx ny (nt_of TIME) t).

(** fv.cpp 111-149 *)
Definition interfs1_inner (rec : buf blk) (mask : buf bool) (nx nt t : nat) : res (list update) :=
  for_ops (nx + 1) 0 (fun i =>
    m0 <- rd mask i ;;
    if (m0 : bool) then
      m1 <- rd mask (i + 1) ;;
      if (m1 : bool) then
        ql <- rd rec (ind1 i t nt) ;; qr <- rd rec (ind1 (i + 1) t nt) ;;
        ' (el, er) <- face 0 t ql qr ;;
        Ok ((if Nat.ltb 0 i then [(i - 1, el)] else []) ++ (if Nat.ltb i nx then [(i, er)] else []))
      else Ok []
    else Ok []).
Definition interfs1 (TIME : bool) rec mask nx : res (list update) :=
  for_ops (nt_of TIME) 0 (fun t => interfs1_inner rec mask nx (nt_of TIME) t).

(** fv.cpp 162-268 *)
Definition interfs2_inner (rec : buf blk) (mask : buf bool) (nx ny nt t : nat) : res (list update) :=
  for_ops (nx + 1) 0 (fun i => for_ops (ny + 1) 0 (fun j =>
    m0 <- rd mask (i * (ny + 2) + j) ;;
    if (m0 : bool) then
      mx <- rd mask ((i + 1) * (ny + 2) + j) ;;
      a <- (if (mx && Nat.ltb 0 j)%bool then
              q0 <- rd rec (ind2 i j t (ny + 2) nt) ;; qx <- rd rec (ind2 (i + 1) j t (ny + 2) nt) ;;
              ' (el, er) <- face 0 t q0 qx ;;
              Ok ((if Nat.ltb 0 i then [((i - 1) * ny + (j - 1), el)] else []) ++ (if Nat.ltb i nx then [(i * ny + (j - 1), er)] else []))
            else Ok []) ;;
      my <- rd mask (i * (ny + 2) + (j + 1)) ;;
      b <- (if (my && Nat.ltb 0 i)%bool then
              q0 <- rd rec (ind2 i j t (ny + 2) nt) ;; qy <- rd rec (ind2 i (j + 1) t (ny + 2) nt) ;;
              ' (el, er) <- face 1 t q0 qy ;;
              Ok ((if Nat.ltb 0 j then [((i - 1) * ny + (j - 1), el)] else []) ++ (if Nat.ltb j ny then [((i - 1) * ny + j, er)] else []))
            else Ok []) ;;
      Ok (a ++ b)
    else Ok [])).
(** fv.cpp 270-279 *)
Definition interfs2 (TIME : bool) rec mask nx ny : res (list update) :=
  for_ops (nt_of TIME) 0 (fun t => interfs2_inner rec mask nx ny (nt_of TIME) t).

(** fv.cpp 281-297 *)
Definition fv_updates (TIME : bool) (rec : buf blk) (mask : buf bool) (nX : list nat) : res (list update) :=
  match nX with
  | [nx] => a <- centers1 TIME rec mask nx ;; b <- interfs1 TIME rec mask nx ;; Ok (a ++ b)
  | [nx; ny] => a <- centers2 TIME rec mask nx ny ;; b <- interfs2 TIME rec mask nx ny ;; Ok (a ++ b)
  | _ => Ok []
  end.

(** performing one update, and all of them *)
Definition do_update (p : update) (u : buf T) : res (buf T) := x <- rd u (fst p) ;; wr u (fst p) (snd p x).
Definition fv_launcher (TIME : bool) (u : buf T) (rec : buf blk) (mask : buf bool) (nX : list nat) : res (buf T) :=
  l <- fv_updates TIME rec mask nX ;; fold_res do_update l u.
End Loops.
Arguments for_ops {T} n lo f.
Arguments do_update {T} p u.
