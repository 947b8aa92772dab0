(* Tasks that can fail, and the sequence status that stops the others.

   Every task body starts with "if (sequence->status == PlasmaSuccess)" (e.g.
   core_blas/core_zgemm.c:121-134, core_zpotrf.c:74-83) and does nothing otherwise; a task
   that detects an error calls plasma_request_fail (control/async.c:17-26), which stores a
   code in sequence->status. The status is shared by all tasks and no depend clause
   mentions it, so when a task sees it depends on the schedule.

   The tasks are those of TaskModel.v, with the same rules for who may run when and the
   same interleaving of single memory accesses. The accesses to the status are modelled as
   atomic; they are plain reads and writes in C, so formally a data race of the source
   (see DESIGN.md). *)
From Coq Require Import ZArith List Bool.
From Verif Require Import Base TaskModel DescModel.
Open Scope Z_scope.

(* The guarded part of a task body: the memory accesses it performs, ending with the value
   of the local variable info (core_blas/core_zpotrf.c:77-81); bodies without such a
   variable end with 0. *)
Inductive cprog (V : Type) : Type :=
| CDone : Z -> cprog V
| CRead : loc -> (V -> cprog V) -> cprog V
| CWrite : loc -> V -> cprog V -> cprog V.
Arguments CDone {V} _.
Arguments CRead {V} _ _.
Arguments CWrite {V} _ _ _.

(* locations a body may read and may write (all task bodies of core_blas/core_z*.c)
   (e.g. core_blas/core_zpotrf.c:74-83) *)
Inductive cmay_read {V} : cprog V -> loc -> Prop :=
| cmr_here : forall l k, cmay_read (CRead l k) l
| cmr_read : forall l k v l', cmay_read (k v) l' -> cmay_read (CRead l k) l'
| cmr_write : forall l v p l', cmay_read p l' -> cmay_read (CWrite l v p) l'.
(* locations a body may write, e.g. core_blas/core_zpotrf.c:74-83 *)
Inductive cmay_write {V} : cprog V -> loc -> Prop :=
| cmw_here : forall l v p, cmay_write (CWrite l v p) l
| cmw_read : forall l k v l', cmay_write (k v) l' -> cmay_write (CRead l k) l'
| cmw_write : forall l v p l', cmay_write p l' -> cmay_write (CWrite l v p) l'.
(* codes a body may end with (the argument of plasma_request_fail, 0 if it is not called)
   (e.g. core_blas/core_zpotrf.c:79-80) *)
Inductive cmay_end {V} : cprog V -> Z -> Prop :=
| cme_here : forall i, cmay_end (CDone i) i
| cme_read : forall l k v i, cmay_end (k v) i -> cmay_end (CRead l k) i
| cme_write : forall l v p i, cmay_end p i -> cmay_end (CWrite l v p) i.

(* running a body without interruption: the memory and the code (task bodies of
   core_blas/core_z*.c) (e.g. core_blas/core_zpotrf.c:74-83) *)
Fixpoint crun {V} (p : cprog V) (m : mem V) : mem V * Z :=
  match p with
  | CDone i => (m, i)
  | CRead l k => crun (k (m l)) m
  | CWrite l v p' => crun p' (upd m l v)
  end.

(* one task construct: e.g. core_blas/core_zpotrf.c:66-84 *)
Record ctask (V : Type) := mkctask { c_deps : list dep; c_body : cprog V }.
Arguments mkctask {V} _ _.
Arguments c_deps {V} _.
Arguments c_body {V} _.

(* a task that has not looked at the status, one that has found it to be PlasmaSuccess and
   is running, and one that has ended: core_blas/core_zpotrf.c:74-83 *)
Inductive phase (V : Type) :=
| Waiting (p : cprog V)
| Running (p : cprog V)
| Finished.
Arguments Waiting {V} _.
Arguments Running {V} _.
Arguments Finished {V}.

(* plasma_request_fail (control/async.c:17-26) called if info is not 0
   (core_blas/core_zpotrf.c:79-80). Of the fields it sets only sequence->status is read
   by anyone. *)
Definition report (st info : Z) : Z := if info =? 0 then st else info.

(* memory, sequence->status and the tasks in submission order (include/plasma_async.h:21-28) *)
Definition gstate (V : Type) : Type := (mem V * Z * list (phase V))%type.

(* the tasks this one has to wait for have ended (OpenMP 4.5, 2.13.9; as in TaskModel.v;
   depend clauses e.g. core_blas/core_zpotrf.c:73) *)
Definition gready {V} (ts : list (ctask V)) (ps : list (phase V)) (i : nat) : Prop :=
  forall j ti tj, (j < i)%nat -> nth_error ts i = Some ti -> nth_error ts j = Some tj ->
    deps_order (c_deps tj) (c_deps ti) -> nth_error ps j = Some Finished.

(* task i goes on to another phase, as in core_blas/core_zpotrf.c:73-83 *)
Definition at_phase {V} (i : nat) (p : phase V) (ps : list (phase V)) : list (phase V) :=
  firstn i ps ++ p :: skipn (S i) ps.

(* one step of the region: a task that may run looks at the status, performs its next
   memory access, or ends (core_blas/core_zpotrf.c:73-83) *)
Inductive gstep {V} (ts : list (ctask V)) : gstate V -> gstate V -> Prop :=
| gs_start : forall m st ps i p, gready ts ps i -> nth_error ps i = Some (Waiting p) ->
    st = PlasmaSuccess ->
    gstep ts (m, st, ps) (m, st, at_phase i (Running p) ps)
| gs_skip : forall m st ps i p, gready ts ps i -> nth_error ps i = Some (Waiting p) ->
    st <> PlasmaSuccess ->
    gstep ts (m, st, ps) (m, st, at_phase i Finished ps)
| gs_read : forall m st ps i l k, nth_error ps i = Some (Running (CRead l k)) ->
    gstep ts (m, st, ps) (m, st, at_phase i (Running (k (m l))) ps)
| gs_write : forall m st ps i l v p, nth_error ps i = Some (Running (CWrite l v p)) ->
    gstep ts (m, st, ps) (upd m l v, st, at_phase i (Running p) ps)
| gs_end : forall m st ps i info, nth_error ps i = Some (Running (CDone info)) ->
    gstep ts (m, st, ps) (m, report st info, at_phase i Finished ps).

(* any number of steps: an execution of the tasks submitted e.g. in compute/zpotrf.c:130-142 *)
Inductive gsteps {V} (ts : list (ctask V)) : gstate V -> gstate V -> Prop :=
| gsteps_refl : forall s, gsteps ts s s
| gsteps_cons : forall s s' s'', gstep ts s s' -> gsteps ts s' s'' -> gsteps ts s s''.

(* the start of the region, after plasma_sequence_init (control/async.c:36-41), and its
   end *)
Definition gstart {V} (ts : list (ctask V)) (m : mem V) : gstate V :=
  (m, PlasmaSuccess, map (fun t => Waiting (c_body t)) ts).
(* the end of the parallel region, e.g. compute/zpotrf.c:130-142: all tasks have ended *)
Definition gend {V} (s : gstate V) : Prop := Forall (fun p => p = Finished) (snd s).
(* the memory after the region, e.g. compute/zpotrf.c:130-142 *)
Definition gmem {V} (s : gstate V) : mem V := fst (fst s).
(* sequence->status after the region, e.g. compute/zpotrf.c:147-149 *)
Definition gstatus {V} (s : gstate V) : Z := snd (fst s).
