(* C14: task dependences make parallel execution equal to sequential execution. *)
From Coq Require Import ZArith List Lia.
From Verif Require Import TaskModel TaskSpec TaskProofs TaskProofs2.
Import ListNotations.
Open Scope Z_scope.

(* Every complete execution ends in the memory of the sequential execution *)
Theorem C14_declared_tasks_deterministic :
  forall V (tile : loc -> loc) (ts : list (task V)) (m : mem V) s,
  Forall (declares tile) ts ->
  steps ts (region_start ts m) s -> region_end s ->
  forall l, fst s l = run_all (map t_body ts) m l.
Proof. exact declared_deterministic. Qed.
Print Assumptions C14_declared_tasks_deterministic.

(* No execution gets stuck before the end of the region *)
Theorem C14_no_deadlock :
  forall V (tile : loc -> loc) (ts : list (task V)) (m : mem V) s,
  Forall (declares tile) ts ->
  steps ts (region_start ts m) s -> ~ region_end s ->
  exists s', step ts s s'.
Proof. exact declared_progress. Qed.
Print Assumptions C14_no_deadlock.

(* No execution goes on forever *)
Theorem C14_terminates : forall V (ts : list (task V)), well_founded (fun s' s => step ts s s').
Proof. exact region_terminates. Qed.
Print Assumptions C14_terminates.

(* The same for tasks of which only the function they compute and their footprint are
   known, whatever order their bodies access memory in; conflicts may be ordered through
   any number of other tasks *)
Theorem C14_kernels_deterministic :
  forall V (ts : list (task V)) (ks : list (ktask V)) (m : mem V) s,
  Forall2 implements ts ks -> klinked ks ->
  steps ts (region_start ts m) s -> region_end s ->
  forall l, fst s l = krun ks m l.
Proof. exact kregion_deterministic. Qed.
Print Assumptions C14_kernels_deterministic.

(* Two tasks x := x+1; y := x and y := 2y; x := x*y, tiles x and y *)
Definition ex_x : loc := (0, 0).
Definition ex_y : loc := (1, 0).
Definition ex_tasks : list (task Z) :=
  [ mktask [dep_inout ex_x; dep_out ex_y]
      (Read ex_x (fun v => Write ex_x (v + 1) (Write ex_y (v + 1) Done)));
    mktask [dep_inout ex_x; dep_inout ex_y]
      (Read ex_y (fun w => Write ex_y (2 * w) (Read ex_x (fun v => Write ex_x (v * w) Done)))) ].
Example C14_case : Forall (declares (fun l => l)) ex_tasks /\
  run_all (map t_body ex_tasks) (fun _ => 5) ex_x = 36.
Proof. exact ex_tasks_declared. Qed.

(* Without the dependence on y the result is not determined: the clauses are needed *)
Definition ex_racy : list (task Z) :=
  [ mktask [dep_out ex_x] (Write ex_x 1 Done); mktask [] (Write ex_x 2 Done) ].
Example C14_dependences_needed : exists s, steps ex_racy (region_start ex_racy (fun _ => 0)) s /\
  region_end s /\ fst s ex_x <> run_all (map t_body ex_racy) (fun _ => 0) ex_x.
Proof. exact ex_racy_differs. Qed.
