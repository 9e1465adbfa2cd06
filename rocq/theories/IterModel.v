(** Model of /repo/code/cpp/src/solvers/iterator.cpp: assembly of the global state, the time step and the main loop. *)
From Coq Require Import Reals ZArith.
From Verif Require Import Base Options Mat3 PhysModel UtilsModel.
Import List ListNotations.
Open Scope R_scope.

(** ** make_u *)
Section MakeU.
Variable o : options.
(** 21-40. The additions to [matSum] are made componentwise; [matCnt] counts in doubles. *)
Definition make_u_cell (MPs : list matpar) (grids : list grid) (masks : list (list bool)) (i : nat) (q : vec) : res vec :=
  let lo := (V o - LSET o)%nat in
  ' (matSum, matCnt) <- for_loop (List.length grids) 0 (fun mat '((s, n) : vec * nat) =>
      m <- get masks mat ;; b <- get m i ;;
      if (b : bool) then g <- get grids mat ;; c <- get g i ;; Ok ((fun k => s k + c (lo + k)%nat) : vec, S n) else Ok (s, n))
    ((fun _ => 0) : vec, O) ;;
  let q := if Nat.ltb 0 matCnt then setseg q lo (LSET o) (fun k => matSum k / INR matCnt) else q in
  let mi := get_material_index o q in
  m <- get MPs mi ;;
  if mp_void m then Ok (setseg q 0 lo (fun _ => 0))
  else g <- get grids mi ;; c <- get g i ;; Ok (setseg q 0 lo c).
(** 12-42 *)
Definition make_u (MPs : list matpar) (grids : list grid) (masks : list (list bool)) (u : grid) : res grid :=
  each_cell (make_u_cell MPs grids masks) 0 u.

(** 44-52 *)
Definition limit_concentration (u : grid) : grid :=
  if MULTI o then
    List.map (fun q => let q := set1 q (mV o) (cmin (q (mV o)) (q 0%nat)) in set1 q (mV o) (cmax (q (mV o)) 0)) u
  else u.
End MakeU.

(** ** timestep *)
Section Step.
(** the wave speed estimate (system/eig.cpp, see WaveProps); [None] is a NaN *)
Variable speed : vec -> nat -> matpar -> option R.

(** 67-70: the sum over the directions; a NaN stays a NaN. The spacings are assumed non-zero. *)
Fixpoint rate_from (d : nat) (dX : list R) (acc : option R) (q : vec) (m : matpar) : option R :=
  match dX with
  | [] => acc
  | h :: dX => rate_from (S d) dX (match acc, speed q d m with Some a, Some c => Some (a + c / h) | _, _ => None end) q m
  end.
Definition rate (dX : list R) (q : vec) (m : matpar) : option R := rate_from 0 dX (Some 0) q m.
(** [std::max(MAX, tmp)] is [MAX < tmp ? tmp : MAX], so a NaN leaves MAX alone *)
Definition smax (a : R) (x : option R) : R := match x with Some x => cmax a x | None => a end.
(** 61-72 *)
Definition max_rate (MPs : list matpar) (grids : list grid) (masks : list (list bool)) (dX : list R) (nmat : nat) : res R :=
  g0 <- get grids 0 ;;
  for_loop nmat 0 (fun mat MAX =>
    m <- get MPs mat ;;
    if mp_void m then Ok MAX
    else for_loop (List.length g0) 0 (fun ind MAX =>
      k <- get masks mat ;; b <- get k ind ;;
      if (b : bool) then g <- get grids mat ;; q <- get g ind ;; Ok (smax MAX (rate dX q m)) else Ok MAX) MAX) 0.
(** 54-83. For MAX = 0 and CFL > 0 the quotient is +inf and the remaining time is returned; for MAX = 0 and CFL <= 0
    it is NaN or -inf, reported as [None]. *)
Definition timestep (MPs : list matpar) (grids : list grid) (masks : list (list bool)) (dX : list R) (CFL t tf : R)
    (count nmat : nat) : res (option R) :=
  MAX <- max_rate MPs grids masks dX nmat ;;
  if Req_EM_T MAX 0 then Ok (if Rlt_dec 0 CFL then Some (tf - t) else None)
  else
    let dt := CFL / MAX in
    let dt := if Nat.leb count 5 then dt * (2 / 10) else dt in
    Ok (Some (if Rlt_dec tf (t + dt) then tf - t else dt)).
End Step.

(** ** iterator *)
Section Iterator.
Variable o : options.
Variable svd : mat3 -> vec3 * mat3.
Variable speed : vec -> nat -> matpar -> option R.
(** multi/fill.cpp fill_ghost_cells (see FillModel): from the grids, masks, state and last step to the state (whose level
    sets it renormalises in place), grids and masks *)
Variable fill_ghost_cells : list grid -> list (list bool) -> grid -> R -> res (grid * list grid * list (list bool)).
(** lines 131-139: boundaries, extend_mask and the stepper, for one material (see GridModel, StepperModel) *)
Variable advance : matpar -> grid -> list bool -> R -> res grid.
(** whether a field contains a NaN *)
Variable nan : grid -> bool.
Variable ROTATE_DISTORTION : bool.
Variables (dX : list R) (CFL tf tol : R) (MPs : list matpar).
Notation nmat := (List.length MPs).

(** The output: 100 slots. Each snapshot is kept with the time at which it was taken; the time is not in the C++
    output, it is there to state when a slot was written. *)
Definition output := buf (grid * R).
Record state := mkstate {
  s_u : grid; s_grids : list grid; s_masks : list (list bool); s_t : R; s_dt : R; s_count : nat; s_push : nat; s_ret : output }.
(** 93, 97-110: an unwritten slot is an empty [Vec] *)
Definition ret0 : output := mkbuf 100 (fun _ => Some ([], 0)).
Definition init (u : grid) : state :=
  mkstate u (repeat u nmat) (repeat (repeat true (List.length u)) nmat) 0 0 0 0 ret0.

(** 126-141 *)
Definition advance_all (grids : list grid) (masks : list (list bool)) (dt : R) : res (list grid) :=
  for_loop nmat 0 (fun mat gs =>
    m <- get MPs mat ;;
    if mp_void m then Ok gs
    else g <- get gs mat ;; k <- get masks mat ;; g' <- advance m g k dt ;;
         Ok (firstn mat gs ++ g' :: skipn (S mat) gs)) grids.
(** 114-166, one turn of the loop. [inl] goes on, [inr] is the return on NaN, of the output and the state reached. A
    non-finite time step leaves the model ([Throw]). *)
Definition turn (s : state) : res (state + state) :=
  let uprev := s_u s in
  ' (u0, grids, masks) <-
    (if Nat.ltb 0 (LSET o) then fill_ghost_cells (s_grids s) (s_masks s) (s_u s) (s_dt s)
     else match s_grids s with [] => UB "grids[0]" | _ :: gs => Ok (s_u s, s_u s :: gs, s_masks s) end) ;;
  d <- timestep speed MPs grids masks dX CFL (s_t s) tf (s_count s) nmat ;;
  match d with
  | None => Throw "non-finite time step"
  | Some dt =>
    grids <- advance_all grids masks dt ;;
    u <- (if Nat.ltb 0 (LSET o) then make_u o MPs grids masks u0 else get grids 0) ;;
    let u := limit_concentration o u in
    let t := s_t s + dt in
    let count := S (s_count s) in
    u <- renorm_distortion o MPs u ;;
    u <- (if (Nat.eqb (count mod 10) 0 && ROTATE_DISTORTION)%bool then rotate_distortion o svd MPs u else Ok u) ;;
    b <- contorted o svd tol u ;;
    u <- (if (b : bool) then reset_distortion o MPs u else Ok u) ;;
    ' (ret, push) <-
      (if Rle_dec (INR (s_push s + 1) / 100 * tf) t then ret <- wr (s_ret s) (s_push s) (u, t) ;; Ok (ret, S (s_push s))
       else Ok (s_ret s, s_push s)) ;;
    if nan u then
      ret <- wr ret push (uprev, s_t s) ;;
      ret <- wr ret (push + 1) (u, t) ;;
      Ok (inr (mkstate u grids masks t dt count push ret))
    else Ok (inl (mkstate u grids masks t dt count push ret))
  end.
(** 112-169. The result is the output and the last state, and whether the run was aborted. *)
Fixpoint run (fuel : nat) (s : state) : res (state * bool) :=
  if Rlt_dec (s_t s) tf then
    match fuel with
    | O => NoFuel
    | S fuel =>
      r <- turn s ;;
      match r with
      | inr s' => Ok (s', true)
      | inl s' => run fuel s'
      end
    end
  else
    ret <- wr (s_ret s) 99 (s_u s, s_t s) ;;
    Ok (mkstate (s_u s) (s_grids s) (s_masks s) (s_t s) (s_dt s) (s_count s) (s_push s) ret, false).
Definition iterator (fuel : nat) (u : grid) : res (state * bool) := run fuel (init u).
End Iterator.
