(* Specification vocabulary for task regions. *)
From Coq Require Import ZArith List.
From Verif Require Import TaskModel.
Import ListNotations.
Open Scope Z_scope.

(* two memories with the same contents *)
Definition meq {V} (m m' : mem V) : Prop := forall l, m l = m' l.

(* some location is touched by both, written by at least one *)
Definition conflict {V} (p q : prog V) : Prop :=
  exists l, (may_write p l /\ (may_read q l \/ may_write q l)) \/ (may_read p l /\ may_write q l).

(* every conflict between two tasks is ordered by their depend clauses *)
Definition ordered {V} (ts : list (task V)) : Prop := forall i j ti tj, (j < i)%nat ->
  nth_error ts i = Some ti -> nth_error ts j = Some tj ->
  conflict (t_body tj) (t_body ti) -> deps_order (t_deps tj) (t_deps ti).

(* [tile l] is the address that stands for the tile containing location l. A task declares
   its accesses if every tile it may read is named in a depend clause and every tile it
   may write is named in an out or inout clause. *)
Definition declares {V} (tile : loc -> loc) (t : task V) : Prop :=
  (forall l, may_read (t_body t) l -> exists d, In d (t_deps t) /\ dep_addr d = tile l) /\
  (forall l, may_write (t_body t) l ->
     exists d, In d (t_deps t) /\ dep_addr d = tile l /\ dep_type d <> DepIn).

(* ------------------------------------------------------------------ *)
(* A task described by what it computes: its depend clauses, the function on memory its
   body amounts to when run alone, and the locations it reads and writes. The body itself
   (the order of its accesses) is left open: BLAS and LAPACK kernels are external.
   Models core_blas/core_*.c, functions plasma_core_omp_*. *)

Record ktask (V : Type) := mkktask {
  k_deps : list dep;
  k_fun : mem V -> mem V;
  k_reads : loc -> Prop;
  k_writes : loc -> Prop }.
Arguments mkktask {V} _ _ _ _.
Arguments k_deps {V} _.
Arguments k_fun {V} _ _ _.
Arguments k_reads {V} _ _.
Arguments k_writes {V} _ _.

Definition implements {V} (t : task V) (k : ktask V) : Prop :=
  t_deps t = k_deps k /\
  (forall l, may_read (t_body t) l -> k_reads k l) /\
  (forall l, may_write (t_body t) l -> k_writes k l) /\
  (forall m, meq (run (t_body t) m) (k_fun k m)).

Definition kconflict {V} (a b : ktask V) : Prop :=
  exists l, (k_writes a l /\ (k_reads b l \/ k_writes b l)) \/ (k_reads a l /\ k_writes b l).

(* all pairs, earlier first *)
Inductive korders {V} : list (ktask V) -> Prop :=
| ko_nil : korders nil
| ko_cons : forall k ks,
    (forall k', In k' ks -> kconflict k k' -> deps_order (k_deps k) (k_deps k')) ->
    korders ks -> korders (k :: ks).

(* the later of two tasks waits for the earlier one, directly or through tasks between *)
Inductive linked {V} : ktask V -> list (ktask V) -> ktask V -> Prop :=
| ln_direct : forall a l b, deps_order (k_deps a) (k_deps b) -> linked a l b
| ln_trans : forall a l1 c l2 b, linked a l1 c -> linked c l2 b -> linked a (l1 ++ c :: l2) b.

(* all conflicting pairs, through any number of tasks in between *)
Definition klinked {V} (ks : list (ktask V)) : Prop :=
  forall l1 a l2 b l3, ks = l1 ++ a :: l2 ++ b :: l3 -> kconflict a b -> linked a l2 b.

Fixpoint krun {V} (ks : list (ktask V)) (m : mem V) : mem V :=
  match ks with
  | nil => m
  | k :: ks' => krun ks' (k_fun k m)
  end.

(* ------------------------------------------------------------------ *)
(* a body for any function with a finite footprint: read everything, then write *)

Fixpoint lookup {V} (env : list (loc * V)) (d : V) (l : loc) : V :=
  match env with
  | nil => d
  | (x, v) :: env' => if loc_eqb l x then v else lookup env' d l
  end.

Fixpoint write_all {V} (ws : list loc) (f : mem V) (p : prog V) : prog V :=
  match ws with
  | nil => p
  | w :: ws' => Write w (f w) (write_all ws' f p)
  end.

Fixpoint read_all {V} (rs : list loc) (env : list (loc * V)) (k : list (loc * V) -> prog V) : prog V :=
  match rs with
  | nil => k env
  | r :: rs' => Read r (fun v => read_all rs' ((r, v) :: env) k)
  end.

Definition canonical {V} (d : V) (f : mem V -> mem V) (rs ws : list loc) : prog V :=
  read_all rs nil (fun env => write_all ws (f (lookup env d)) Done).

(* ------------------------------------------------------------------ *)
(* Total correctness of a parallel region over all schedules. The tasks ks have bodies that
   compute them; and whatever such bodies are (in whatever order they access memory), every
   execution allowed by the depend clauses, starting from memory M, can go on until all
   tasks have completed, and then satisfies Q. Executions are always finite (theorem
   C14_terminates). *)
Definition region_ensures {V} (ks : list (ktask V)) (M : mem V) (Q : mem V -> Prop) : Prop :=
  (exists ts, Forall2 implements ts ks) /\
  (forall ts s, Forall2 implements ts ks -> steps ts (region_start ts M) s ->
     (region_end s -> Q (fst s)) /\ (~ region_end s -> exists s', step ts s s')).
