(* Property C13: the panel barrier. *)
From Coq Require Import ZArith List.
From Verif Require Import Base BarrierModel BarrierSpec BarrierProofs.
Import ListNotations.
Open Scope Z_scope.

(* C13: in every interleaving no thread leaves its r-th call before all have begun theirs,
   and some thread can always move on until all are finished; moreover, from whatever point
   an execution has reached, 5 * rounds * size sweeps, in each of which every thread takes a
   step, in any order and any number of times, complete all calls *)
Theorem C13_barrier : forall size rounds, 0 < size -> 0 <= rounds ->
  (forall sched, (forall t, In t sched -> 0 <= t < size) ->
     let s := bexec size rounds sched in
     separated size s /\
     (finished size rounds s \/ exists t, 0 <= t < size /\ bstep size rounds t s <> s)) /\
  (forall prefix ls, (forall t, In t prefix -> 0 <= t < size) ->
     Forall (fun l => (forall t, In t l -> 0 <= t < size) /\ (forall t, 0 <= t < size -> In t l)) ls ->
     5 * rounds * size <= Z.of_nat (length ls) ->
     finished size rounds (bexec size rounds (prefix ++ concat ls))).
Proof. exact barrier_main. Qed.
Print Assumptions C13_barrier.

(* a case: two threads; thread 1 wins the first round, thread 0 is released afterwards *)
Example C13_case :
  let s := bexec 2 2 [0; 0; 1; 1; 0; 1] in
  b_pc s 0 = Won /\ b_pc s 1 = Spinning 0 /\
  begun s 0 = 1 /\ begun s 1 = 1 /\
  b_done (bexec 2 2 [0; 0; 1; 1; 0; 1; 0; 0; 1]) 1 = 1.
Proof. repeat split. Qed.
