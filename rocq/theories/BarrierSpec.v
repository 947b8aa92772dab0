(* What is expected of a barrier, in terms of the calls each thread has begun and completed. *)
From Coq Require Import ZArith List.
From Verif Require Import BarrierModel.
Open Scope Z_scope.

(* number of calls a thread has begun *)
Definition begun (s : bstate) (t : Z) : Z :=
  match b_pc s t with Outside => b_done s t | _ => b_done s t + 1 end.

(* no call number r has returned in any thread before every thread has begun its own *)
Definition separated (size : Z) (s : bstate) : Prop :=
  forall t t', 0 <= t < size -> 0 <= t' < size -> b_done s t <= begun s t'.

Definition finished (size rounds : Z) (s : bstate) : Prop :=
  forall t, 0 <= t < size -> b_pc s t = Outside /\ b_done s t = rounds.

(* number of memory operations a thread still has to do, at most: 5 per call (the loads of
   the waiting loop that find the old value are not counted) *)
Definition togo (rounds : Z) (s : bstate) (t : Z) : Z :=
  5 * (rounds - b_done s t)
  - match b_pc s t with Outside => 0 | Loaded _ => 1 | Added _ => 2 | Won => 3 | Spinning _ => 3 | Bump _ => 4 end.
