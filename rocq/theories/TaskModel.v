(* Model of the OpenMP tasks the library submits.

   Every parallel routine (compute/pz*.c) runs in one thread (#pragma omp parallel /
   #pragma omp master, e.g. compute/zgemm.c:223-243) and submits its work as sibling
   tasks with depend clauses (e.g. core_blas/core_zgemm.c:125-135). Modelled is what
   OpenMP guarantees about such tasks (OpenMP 4.5, section 2.13.9): a task waits for every
   earlier sibling that names the same address in a depend clause unless both only say
   "in"; apart from that, tasks may run in any order and at the same time, their memory
   accesses interleaving one by one.

   Simplifications:
   - all tasks are available from the start (the real master creates them one by one,
     which only removes executions);
   - single memory accesses are atomic and take effect in a total order (for executions
     without data races this is what the C memory model gives);
   - only the base address of the array section in a depend clause matters, as OpenMP
     compares list items that are identical or disjoint.

   A task also takes a step to start, so that a task whose body touches no shared memory
   (the "fake" tasks of compute/pzgetrf.c:49-62 and compute/pzgeswp.c:37-45, which only
   increment a local variable) still completes after the tasks it has to wait for. *)
From Coq Require Import ZArith List Bool.
Open Scope Z_scope.

(* A memory location: a block (one allocation: a user array, the storage of a descriptor,
   a workspace) and an element offset in it. C pointers into different allocations never
   meet. (e.g. the pointers of core_blas/core_zgemm.c:105-111) *)
Definition loc : Type := (Z * Z)%type.

(* equality of pointers, e.g. of the base addresses in core_blas/core_zgemm.c:125-127 *)
Definition loc_eqb (a b : loc) : bool := (fst a =? fst b) && (snd a =? snd b).

(* the contents of memory: the arrays behind the pointers of core_blas/core_zgemm.c:105-111 *)
Definition mem (V : Type) : Type := loc -> V.

(* storing one element: C assignment through a pointer (e.g. core_blas/core_zlacpy.c:60-73) *)
Definition upd {V} (m : mem V) (l : loc) (v : V) : mem V :=
  fun x => if loc_eqb x l then v else m x.

(* The body of a task, as the memory accesses it performs: what is read may decide
   everything that follows. The structure is well founded: task bodies are loops over
   matrix dimensions and terminate. E.g. core_blas/core_zgemm.c:128-135. *)
Inductive prog (V : Type) : Type :=
| Done : prog V
| Read : loc -> (V -> prog V) -> prog V
| Write : loc -> V -> prog V -> prog V
| Tick : prog V -> prog V.  (* a step that touches no shared memory: the start of a task *)
Arguments Done {V}.
Arguments Read {V} _ _.
Arguments Write {V} _ _ _.
Arguments Tick {V} _.

(* running a body without interruption (e.g. core_blas/core_zgemm.c:128-135) *)
Fixpoint run {V} (p : prog V) (m : mem V) : mem V :=
  match p with
  | Done => m
  | Read l k => run (k (m l)) m
  | Write l v p' => run p' (upd m l v)
  | Tick p' => run p' m
  end.

(* locations a body may read and may write (e.g. core_blas/core_zgemm.c:128-135) *)
Inductive may_read {V} : prog V -> loc -> Prop :=
| mr_here : forall l k, may_read (Read l k) l
| mr_read : forall l k v l', may_read (k v) l' -> may_read (Read l k) l'
| mr_write : forall l v p l', may_read p l' -> may_read (Write l v p) l'
| mr_tick : forall p l', may_read p l' -> may_read (Tick p) l'.
(* locations a body may write, e.g. core_blas/core_zgemm.c:128-135 *)
Inductive may_write {V} : prog V -> loc -> Prop :=
| mw_here : forall l v p, may_write (Write l v p) l
| mw_read : forall l k v l', may_write (k v) l' -> may_write (Read l k) l'
| mw_write : forall l v p l', may_write p l' -> may_write (Write l v p) l'
| mw_tick : forall p l', may_write p l' -> may_write (Tick p) l'.

(* OpenMP depend clauses: in, out, inout (e.g. core_blas/core_zgemm.c:125-127) *)
Inductive dep_kind := DepIn | DepOut | DepInout.
(* one item of a depend clause, e.g. core_blas/core_zgemm.c:125-127 *)
Record dep := mkdep { dep_type : dep_kind; dep_addr : loc }.
(* depend(in:...), e.g. core_blas/core_zgemm.c:125 *)
Definition dep_in a := mkdep DepIn a.
(* depend(out:...), e.g. core_blas/core_zlacpy.c:121 *)
Definition dep_out a := mkdep DepOut a.
(* depend(inout:...), e.g. core_blas/core_zgemm.c:127 *)
Definition dep_inout a := mkdep DepInout a.

(* one task construct, e.g. core_blas/core_zgemm.c:125-135 *)
Record task (V : Type) := mktask { t_deps : list dep; t_body : prog V }.
Arguments mktask {V} _ _.
Arguments t_deps {V} _.
Arguments t_body {V} _.

(* OpenMP 4.5, 2.13.9: the later task is a dependent task of the earlier one
   (clauses as in core_blas/core_zgemm.c:125-127) *)
Definition deps_order (earlier later : list dep) : Prop :=
  exists d d', In d earlier /\ In d' later /\ dep_addr d = dep_addr d' /\
               ~ (dep_type d = DepIn /\ dep_type d' = DepIn).

(* State of a running region: the memory and what is left of each task, in submission
   order. One step: some task whose predecessors have all finished starts or performs its
   next memory access. Tasks as in core_blas/core_zgemm.c:125-135. *)
Inductive step {V} (ts : list (task V)) : mem V * list (prog V) -> mem V * list (prog V) -> Prop :=
| step_read : forall m ps i l k,
    ready ts ps i -> nth_error ps i = Some (Read l k) ->
    step ts (m, ps) (m, firstn i ps ++ k (m l) :: skipn (S i) ps)
| step_write : forall m ps i l v p,
    ready ts ps i -> nth_error ps i = Some (Write l v p) ->
    step ts (m, ps) (upd m l v, firstn i ps ++ p :: skipn (S i) ps)
| step_tick : forall m ps i p,
    ready ts ps i -> nth_error ps i = Some (Tick p) ->
    step ts (m, ps) (m, firstn i ps ++ p :: skipn (S i) ps)
(* the tasks that task i waits for are done: clauses as in core_blas/core_zgemm.c:125-127 *)
with ready {V} (ts : list (task V)) : list (prog V) -> nat -> Prop :=
| ready_intro : forall ps i,
    (forall j ti tj, (j < i)%nat -> nth_error ts i = Some ti -> nth_error ts j = Some tj ->
       deps_order (t_deps tj) (t_deps ti) -> nth_error ps j = Some Done) ->
    ready ts ps i.

(* any number of steps: an execution of a region such as compute/zgemm.c:223-243 *)
Inductive steps {V} (ts : list (task V)) : mem V * list (prog V) -> mem V * list (prog V) -> Prop :=
| steps_refl : forall s, steps ts s s
| steps_cons : forall s s' s'', step ts s s' -> steps ts s' s'' -> steps ts s s''.

(* the start of the region and its end (the implicit barrier of the parallel region)
   (e.g. compute/zgemm.c:223-243) *)
Definition region_start {V} (ts : list (task V)) (m : mem V) : mem V * list (prog V) :=
  (m, map (fun t => Tick (t_body t)) ts).
(* the end of a region such as compute/zgemm.c:223-243: all tasks are done *)
Definition region_end {V} (s : mem V * list (prog V)) : Prop :=
  Forall (fun p => p = Done) (snd s).

(* the sequential execution, in submission order
   (the order of the calls, e.g. in compute/pzgemm.c:41-239) *)
Fixpoint run_all {V} (ps : list (prog V)) (m : mem V) : mem V :=
  match ps with
  | nil => m
  | p :: ps' => run_all ps' (run p m)
  end.
