(* Model of control/barrier.c and include/plasma_barrier.h: one barrier object, used by
   [size] threads, each of which calls plasma_barrier_wait [rounds] times. Every load,
   store and atomic operation of the C code is one step; memory is sequentially
   consistent. Simplifications: the int counters do not wrap around. *)
From Coq Require Import ZArith List Bool.
From Verif Require Import Base.
Import ListNotations.
Open Scope Z_scope.

(* control/barrier.c:21-30: where a thread is in plasma_barrier_wait, with its local
   variable passed_old and the number [r] of calls it has completed.
   Outside: not in a call.  Loaded: passed_old has been read (line 23).
   Added: count has been incremented (25).  Won: the compare-and-swap succeeded (26).
   Bump: passed has been read by "passed++" (27), value v.
   Spinning: in the loop (29). *)
Inductive pc :=
| Outside
| Loaded (old : Z)
| Added (old : Z)
| Won
| Bump (v : Z)
| Spinning (old : Z).

(* include/plasma_barrier.h:19-22, and the threads: position and completed calls *)
Record bstate := mkb { b_count : Z; b_passed : Z; b_pc : Z -> pc; b_done : Z -> Z }.

(* control/barrier.c:14-18 plasma_barrier_init *)
Definition barrier_init : bstate := mkb 0 0 (fun _ => Outside) (fun _ => 0).

(* update of one thread (the per-thread variables of control/barrier.c:21-30) *)
Definition bput {V} (f : Z -> V) (t : Z) (v : V) : Z -> V := fun x => if x =? t then v else f x.

(* control/barrier.c:21-30: the next memory operation of thread t; a thread outside starts
   a new call unless it has completed [rounds] calls *)
Definition bstep (size rounds t : Z) (s : bstate) : bstate :=
  match b_pc s t with
  | Outside =>
      if b_done s t <? rounds
      then mkb (b_count s) (b_passed s) (bput (b_pc s) t (Loaded (b_passed s))) (b_done s)
      else s
  | Loaded old => mkb (b_count s + 1) (b_passed s) (bput (b_pc s) t (Added old)) (b_done s)
  | Added old =>
      if b_count s =? size
      then mkb 0 (b_passed s) (bput (b_pc s) t Won) (b_done s)
      else mkb (b_count s) (b_passed s) (bput (b_pc s) t (Spinning old)) (b_done s)
  | Won => mkb (b_count s) (b_passed s) (bput (b_pc s) t (Bump (b_passed s))) (b_done s)
  | Bump v => mkb (b_count s) (v + 1) (bput (b_pc s) t Outside) (bput (b_done s) t (b_done s t + 1))
  | Spinning old =>
      if b_passed s =? old then s
      else mkb (b_count s) (b_passed s) (bput (b_pc s) t Outside) (bput (b_done s) t (b_done s t + 1))
  end.

(* control/barrier.c: an execution is any sequence of thread numbers 0..size-1 *)
Definition bexec (size rounds : Z) (sched : list Z) : bstate :=
  fold_left (fun s t => bstep size rounds t s) sched barrier_init.
